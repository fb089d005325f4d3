(** C73: the test of an edge against a triangle, in exact arithmetic. *)
From Coq Require Import List Reals Lra Lia Bool Ascii.
From Verif Require Import SplitModel PointsModel GeoModel GeoSpec GeoSeg GeoPlane GeoProj GeoPip GeoStrip GeoSweep GeoEvenOdd GeoTri GeoPip3 GeoPipProps GeoProps.
Import ListNotations.
Open Scope R_scope.

(** ** Specification *)
(** The point with weights x, y, z. *)
Definition weighted (a b d : R * R * R) (x y z : R) : R * R * R :=
  let '(a1, a2, a3) := a in let '(b1, b2, b3) := b in let '(d1, d2, d3) := d in
  (x * a1 + y * b1 + z * d1, x * a2 + y * b2 + z * d2, x * a3 + y * b3 + z * d3).
(** in the triangle, its boundary included; strictly inside *)
Definition in_triangle (a b d p : R * R * R) : Prop := exists x y z, 0 <= x /\ 0 <= y /\ 0 <= z /\ x + y + z = 1 /\ p = weighted a b d x y z.
Definition strictly_in_triangle (a b d p : R * R * R) : Prop := exists x y z, 0 < x /\ 0 < y /\ 0 < z /\ x + y + z = 1 /\ p = weighted a b d x y z.

(** ** The test of the segment from q to r against the triangle a b d, whose plane is computed by the library: [res] is a possible result *)
Definition triangle_test (a b d q r : vec3) (res : result) : Prop :=
  exists n dc c code point, plane_coefficients [a; b; d] = Some (n, dc, c) /\ segment_plane_type q r [a; b; d] n c (Some code) /\
    (code = "1"%char -> snd (segment_plane n dc q r) = Some point) /\
    res = test (fun _ _ => code) (fun _ _ => point) (fun _ p => point_in_polygon_3d p [a; b; d] n c) (fun _ => q) (fun _ => r) 0 0.
(** the plane of the triangle is away from the cone of C62 *)
Definition regular_triangle (a b d : vec3) : Prop := forall n dc c, plane_coefficients [a; b; d] = Some (n, dc, c) -> regular n c.

(** ** Proofs *)
Lemma weighted_plane n a b d x y z h : dot3 n a = h -> dot3 n b = h -> dot3 n d = h -> x + y + z = 1 -> dot3 n (weighted a b d x y z) = h.
Proof. destruct n as [[n1 n2] n3], a as [[a1 a2] a3], b as [[b1 b2] b3], d as [[d1 d2] d3]. cbn. intros A B D S. transitivity (x * (n1 * a1 + n2 * a2 + n3 * a3) + y * (n1 * b1 + n2 * b2 + n3 * b3) + z * (n1 * d1 + n2 * d2 + n3 * d3)); [ring|]. rewrite A, B, D. transitivity (h * (x + y + z)); [ring|rewrite S; ring]. Qed.
Lemma weighted_at3 a b d x y z : 0 < z -> 0 <= y -> x + y + z = 1 -> weighted a b d x y z = at3 a (at3 b d (z / (y + z))) (y + z).
Proof. intros Z Y S. destruct a as [[a1 a2] a3], b as [[b1 b2] b3], d as [[d1 d2] d3]. cbn. replace x with (1 - y - z) by lra. f_equal; [f_equal|]; field; lra. Qed.
Lemma project_weighted n c a b d x y z : 0 < z -> 0 <= y -> x + y + z = 1 ->
  project n c (weighted a b d x y z) = (x * fst (project n c a) + y * fst (project n c b) + z * fst (project n c d), x * snd (project n c a) + y * snd (project n c b) + z * snd (project n c d)).
Proof. intros Z Y S. rewrite (weighted_at3 a b d x y z Z Y S), !project_at3. unfold at2. cbn [fst snd]. replace x with (1 - y - z) by lra. f_equal; field; lra. Qed.

Lemma normal_plane a b d p : In p [a; b; d] -> dot3 (cross_product (vsub b a) (vsub d a)) p = dot_product a (cross_product (vsub b a) (vsub d a)).
Proof. destruct a as [[a1 a2] a3], b as [[b1 b2] b3], d as [[d1 d2] d3]. intros [<-|[<-|[<-|[]]]]; cbn; ring. Qed.
Lemma parity_some {A} (P : A -> Prop) l : parity P l true -> exists x, In x l /\ P x.
Proof. remember true as t. intros H. induction H as [|x l b X H IH|x l b X H IH]; [discriminate|exists x; split; [left; reflexivity|exact X]|]. destruct (IH Heqt) as (y & I & Y). exists y. split; [right; exact I|exact Y]. Qed.
Lemma boundary_in a b d p : on_boundary3 p [a; b; d] -> in_triangle a b d p.
Proof.
  intros ([u v] & I & t & T & E). cbn in I, E. subst p. unfold weighted. destruct I as [I|[I|[I|[]]]]; injection I as <- <-.
  - exists t, 0, (1 - t). repeat (split; [lra|]). destruct a as [[a1 a2] a3], b as [[b1 b2] b3], d as [[d1 d2] d3]. cbn. f_equal; [f_equal|]; ring.
  - exists (1 - t), t, 0. repeat (split; [lra|]). destruct a as [[a1 a2] a3], b as [[b1 b2] b3], d as [[d1 d2] d3]. cbn. f_equal; [f_equal|]; ring.
  - exists 0, (1 - t), t. repeat (split; [lra|]). destruct a as [[a1 a2] a3], b as [[b1 b2] b3], d as [[d1 d2] d3]. cbn. f_equal; [f_equal|]; ring.
Qed.
Lemma in_boundary a b d p : in_triangle a b d p -> strictly_in_triangle a b d p \/ on_boundary3 p [a; b; d].
Proof.
  intros (x & y & z & X & Y & Z & S & ->). destruct (Req_dec x 0) as [X0|X0]; [right|destruct (Req_dec y 0) as [Y0|Y0]; [right|destruct (Req_dec z 0) as [Z0|Z0]; [right|]]].
  - exists (b, d). split; [cbn; auto|]. exists z. split; [lra|]. subst x. replace y with (1 - z) by lra. destruct a as [[a1 a2] a3], b as [[b1 b2] b3], d as [[d1 d2] d3]. cbn. f_equal; [f_equal|]; ring.
  - exists (d, a). split; [cbn; auto|]. exists x. split; [lra|]. subst y. replace z with (1 - x) by lra. destruct a as [[a1 a2] a3], b as [[b1 b2] b3], d as [[d1 d2] d3]. cbn. f_equal; [f_equal|]; ring.
  - exists (a, b). split; [cbn; auto|]. exists y. split; [lra|]. subst z. replace x with (1 - y) by lra. destruct a as [[a1 a2] a3], b as [[b1 b2] b3], d as [[d1 d2] d3]. cbn. f_equal; [f_equal|]; ring.
  - left. exists x, y, z. repeat (split; [lra|]). reflexivity.
Qed.
Section Triangle.
Variables (a b d n : vec3) (dc : R) (c : nat).
Hypothesis L : ~ on_a_line a b d.
Hypothesis PC : plane_coefficients [a; b; d] = Some (n, dc, c).
Hypothesis RG : regular n c.
Lemma tri_c : (c <= 2)%nat. Proof. exact (proj1 (proj1 (C63_coefficients _ _ _ _ PC))). Qed.
Lemma tri_normal : n = cross_product (vsub b a) (vsub d a) /\ dc = dot_product a n.
Proof. destruct (C63_triangle a b d) as [E _]. pose proof (eq_trans (eq_sym PC) E) as X. injection X as X1 X2 X3. rewrite X1, X2. auto. Qed.
Lemma tri_plane p : In p [a; b; d] -> dot3 n p = dc.
Proof.
  destruct tri_normal as [-> ->]. apply normal_plane.
Qed.
Lemma tri_nonzero : n <> (0, 0, 0). Proof. destruct tri_normal as [-> _]. apply C63_triangle, L. Qed.
Lemma tri_on_plane p : on_plane a b d p <-> dot3 n p = dc.
Proof.
  rewrite (plane_of_three n a b d p tri_nonzero L); [|rewrite !tri_plane by (cbn; auto); reflexivity|rewrite !tri_plane by (cbn; auto); reflexivity]. rewrite (tri_plane a) by (cbn; auto). reflexivity.
Qed.
Lemma tri_orient : orient2d (project n c a) (project n c b) (project n c d) <> 0.
Proof. intros O. apply L. apply (proj1 (regular_orient n c a b d tri_c RG ltac:(rewrite !tri_plane by (cbn; auto); reflexivity) ltac:(rewrite !tri_plane by (cbn; auto); reflexivity)) O). Qed.
Lemma inside_project p : dot3 n p = dc -> (inside_triangle (project n c a) (project n c b) (project n c d) (project n c p) <-> strictly_in_triangle a b d p).
Proof.
  intros P. split.
  - intros (x & y & z & X & Y & Z & S & E1 & E2). exists x, y, z. do 4 (split; [assumption|]). apply (regular_injective n c p _ tri_c RG).
    + rewrite P. symmetry. apply weighted_plane; try apply tri_plane; cbn; auto.
    + rewrite project_weighted by lra. rewrite <- E1, <- E2. apply surjective_pairing.
  - intros (x & y & z & X & Y & Z & S & ->). exists x, y, z. do 4 (split; [assumption|]). rewrite project_weighted by lra. auto.
Qed.
Lemma triangle_planar p : in_triangle a b d p -> dot3 n p = dc.
Proof. intros (x & y & z & X & Y & Z & S & ->). apply weighted_plane; try apply tri_plane; cbn; auto. Qed.
(** the code of a point of the plane *)
Lemma pip_triangle p : dot3 n p = dc -> let code := point_in_polygon_3d p [a; b; d] n c in
  (code = "i"%char /\ strictly_in_triangle a b d p) \/ (code = "o"%char /\ ~ in_triangle a b d p) \/ ((code = "v"%char \/ code = "e"%char) /\ on_boundary3 p [a; b; d] /\ ~ strictly_in_triangle a b d p).
Proof.
  intros P code. subst code. unfold point_in_polygon_3d. cbn [map].
  destruct (C61_triangle (project n c a) (project n c b) (project n c d) (project n c p) tri_orient) as [I O].
  assert (BP : on_boundary3 p [a; b; d] <-> on_boundary (project n c p) [project n c a; project n c b; project n c d]) by (apply (boundary_project n c tri_c RG p [a; b; d]); intros x X; rewrite P; apply tri_plane, X).
  rewrite (inside_project p P) in I, O. rewrite <- BP in O. set (x := point_in_polygon (project n c p) [project n c a; project n c b; project n c d]) in *.
  assert (C : x = "i"%char \/ x = "o"%char \/ (x = "v"%char \/ x = "e"%char)).
  { unfold x. destruct (pip_cases (project n c p) [project n c a; project n c b; project n c d]) as [[_ ->]|[_ ->]]; [tauto|]. destruct (xorb _ _); [tauto|]. destruct (esum _ _); tauto. }
  destruct C as [C|[C|C]].
  - left. split; [exact C|]. apply I, C.
  - right. left. split; [exact C|]. apply O in C. intros T. destruct (in_boundary _ _ _ p T); tauto.
  - right. right. split; [exact C|]. assert (NI : x <> "i"%char) by (destruct C as [-> | ->]; discriminate). assert (NO : x <> "o"%char) by (destruct C as [-> | ->]; discriminate).
    assert (NS : ~ strictly_in_triangle a b d p) by (intros X; apply NI, I, X). split; [|exact NS]. apply BP. destruct C as [C|C]; [apply vertex_boundary, C61_vertex, C|]. apply C61_edge in C. destruct C as [_ C]. apply parity_some in C. exact C.
Qed.
End Triangle.

(** ** The result of the test *)
(** A hit is the only common point, strictly inside both; general position is violated only if an end of the segment is in the triangle or the segment meets its boundary; and if nothing is
    reported, there is no common point - unless the segment is in the plane of the triangle. *)
Theorem C73_triangle_partial : forall a b d q r : vec3, ~ on_a_line a b d -> regular_triangle a b d ->
  (exists res, triangle_test a b d q r res) /\
  forall res, triangle_test a b d q r res ->
  match res with
  | Hit p => strictly_in_triangle a b d p /\ (exists t, 0 < t < 1 /\ p = at3 q r t) /\ forall t, 0 <= t <= 1 -> in_triangle a b d (at3 q r t) -> at3 q r t = p
  | Violation => in_triangle a b d q \/ in_triangle a b d r \/ exists t, 0 < t < 1 /\ on_boundary3 (at3 q r t) [a; b; d]
  | Miss => ~ in_triangle a b d q /\ ~ in_triangle a b d r /\ (~ (on_plane a b d q /\ on_plane a b d r) -> forall t, 0 <= t <= 1 -> ~ in_triangle a b d (at3 q r t))
  end.
Proof.
  intros a b d q r L RGT. destruct (plane_coefficients [a; b; d]) as [[[n dc] c]|] eqn:PC; [|discriminate PC]. pose proof (RGT n dc c PC) as RG.
  pose proof (C44_triangle a b d q r n c L) as [EX CO]. assert (PL : forall x, on_plane a b d x <-> dot3 n x = dc) by (intros x; exact (tri_on_plane a b d n dc c L PC RG x)).
  assert (D : forall t, dot3 n (at3 q r t) = dot3 n q + t * (dot3 n r - dot3 n q)) by (intros t; destruct n as [[n1 n2] n3], q as [[q1 q2] q3], r as [[r1 r2] r3]; cbn; ring).
  assert (A0 : at3 q r 0 = q) by (destruct q as [[q1 q2] q3], r as [[r1 r2] r3]; cbn; f_equal; [f_equal|]; ring). assert (A1 : at3 q r 1 = r) by (destruct q as [[q1 q2] q3], r as [[r1 r2] r3]; cbn; f_equal; [f_equal|]; ring).
  assert (TP : forall x, in_triangle a b d x -> dot3 n x = dc) by (intros x; exact (triangle_planar a b d n dc c PC RG x)).
  pose proof (pip_triangle a b d n dc c L PC RG) as PIP.
  assert (SI : forall x, strictly_in_triangle a b d x -> in_triangle a b d x) by (intros x (u & v & w & H); exists u, v, w; intuition lra).
  assert (TC : forall x, dot3 n x = dc -> (touching (fun _ p => point_in_polygon_3d p [a; b; d] n c) 0 x = true <-> in_triangle a b d x)).
  { intros x X. unfold touching. cbv zeta beta. destruct (PIP x X) as [[-> I]|[[-> I]|[[-> | ->] [I _]]]]; cbn; split; intros; auto; try discriminate; try contradiction; apply boundary_in; assumption. }
  split.
  - destruct EX as (code & E). assert (PT : exists point, code = "1"%char -> snd (segment_plane n dc q r) = Some point).
    { destruct (segment_plane n dc q r) as [cd [x|]] eqn:SP; [exists x; reflexivity|]. exists (0, 0, 0). intros ->. exfalso. destruct (CO _ E) as (? & [= <-] & M). unfold segment_plane in SP. destruct (eqb _ 0) eqn:Z in SP; [|discriminate]. apply eqb_true in Z.
      inversion M as [| | |M1 M2 (t & T & M3)|]; subst. rewrite PL in M1, M2, M3. rewrite D in M3. assert (DZ : dot3 n r - dot3 n q = 0) by (clear - Z; destruct n as [[n1 n2] n3], q as [[q1 q2] q3], r as [[r1 r2] r3]; cbn in *; lra). rewrite DZ in M3. apply M1. lra. }
    destruct PT as (point & PT). eexists. exists n, dc, c, code, point. split; [exact PC|]. split; [exact E|]. split; [exact PT|]. reflexivity.
  - intros res (n' & dc' & c' & code & point & PC' & E & PT & ->). rewrite PC in PC'. injection PC' as <- <- <-. destruct (CO _ E) as (? & [= <-] & M). unfold test. cbv zeta.
    inversion M as [M1 M2 Ec|M1 M2 Ec|M1 M2 Ec|M1 M2 (t & T & M3) Ec|M1 Ec]; subst code; rewrite ?PL in *; cbn [Ascii.eqb Bool.eqb negb orb existsb].
    + (* in the plane *) rewrite orb_false_r. pose proof (TC q M1) as Tq. pose proof (TC r M2) as Tr. destruct (touching _ 0 q); cbn [orb]; [left; apply Tq; reflexivity|]. destruct (touching _ 0 r); [right; left; apply Tr; reflexivity|].
      split; [intros X; apply Tq in X; discriminate|]. split; [intros X; apply Tr in X; discriminate|]. intros X. exfalso. apply X. split; first [assumption|apply PL; assumption].
    + rewrite orb_false_r. pose proof (TC q M1) as Tq. destruct (touching _ 0 q); [left; apply Tq; reflexivity|]. assert (NQ : ~ in_triangle a b d q) by (intros X; apply Tq in X; discriminate). split; [exact NQ|]. split; [intros X; apply M2, TP, X|]. intros _ t T X. apply NQ. rewrite <- A0. replace 0 with t; [exact X|]. apply TP in X. rewrite D in X. assert (dot3 n r - dot3 n q <> 0) by lra. assert (t * (dot3 n r - dot3 n q) = 0) by lra. apply Rmult_integral in H0. tauto.
    + rewrite orb_false_r. pose proof (TC r M2) as Tr. destruct (touching _ 0 r); [right; left; apply Tr; reflexivity|]. assert (NR : ~ in_triangle a b d r) by (intros X; apply Tr in X; discriminate). split; [intros X; apply M1, TP, X|]. split; [exact NR|]. intros _ t T X. apply NR. rewrite <- A1. replace 1 with t; [exact X|]. apply TP in X. rewrite D in X. assert (dot3 n r - dot3 n q <> 0) by lra. assert ((t - 1) * (dot3 n r - dot3 n q) = 0) by lra. apply Rmult_integral in H0. lra.
    + (* through the plane *) specialize (PT eq_refl). destruct (segment_plane n dc q r) as [cd px] eqn:SP. cbn [snd] in PT. subst px. destruct (C63_segment n q r dc cd (Some point) SP) as (M' & _ & _ & K).
      assert (NZ : dot3 n r - dot3 n q <> 0) by (intros Z; rewrite D, Z in M3; lra). assert (U : forall u, dot3 n (at3 q r u) = dc -> u = t). { intros u X. rewrite D in X, M3. assert (Q : (u - t) * (dot3 n r - dot3 n q) = 0) by lra. apply Rmult_integral in Q. lra. }
      assert (CD : cd = "1"%char). { inversion M' as [X Y Q|X Y Q|X Y Q|X Y Z Q|X Q]; subst cd; try reflexivity; unfold plane in *; try contradiction. exfalso. apply (X t); [lra|exact M3]. }
      destruct (K CD) as (u & Tu & [= ->] & Pu). unfold plane in Pu. rewrite (U u Pu) in *. clear u Tu Pu K.
      assert (NQ : ~ in_triangle a b d q) by (intros X; apply M1, TP, X). assert (NR : ~ in_triangle a b d r) by (intros X; apply M2, TP, X).
      destruct (PIP (at3 q r t) M3) as [[-> I]|[[-> I]|[[-> | ->] [I _]]]]; cbn [Ascii.eqb Bool.eqb orb].
      * split; [exact I|]. split; [exists t; auto|]. intros u Tu X. rewrite (U u (TP _ X)). reflexivity.
      * split; [exact NQ|]. split; [exact NR|]. intros _ u Tu X. rewrite (U u (TP _ X)) in X. contradiction.
      * right. right. exists t. auto.
      * right. right. exists t. auto.
    + (* on one side *) assert (NQ : ~ in_triangle a b d q) by (intros X; apply (M1 0); [lra|]; rewrite A0; apply PL, TP, X). assert (NR : ~ in_triangle a b d r) by (intros X; apply (M1 1); [lra|]; rewrite A1; apply PL, TP, X).
      split; [exact NQ|]. split; [exact NR|]. intros _ t T X. apply (M1 t T), PL, TP, X.
Qed.

(** ** Segments in the plane of the triangle are reported only if an end is in the triangle *)
Lemma coplanar_miss (a b d q r : vec3) : ~ on_a_line a b d -> regular_triangle a b d -> on_plane a b d q -> on_plane a b d r -> ~ in_triangle a b d q -> ~ in_triangle a b d r ->
  forall res, triangle_test a b d q r res -> res = Miss.
Proof.
  intros L RGT Pq Pr Nq Nr res (n & dc & c & code & point & PC & E & _ & ->). pose proof (RGT n dc c PC) as RG. destruct (proj2 (C44_triangle a b d q r n c L) _ E) as (? & [= <-] & M).
  assert (EP : code = "p"%char). { inversion M as [X Y Q|X Y Q|X Y Q|X Y Z Q|X Q]; try contradiction; [reflexivity|]. exfalso. apply (X 0); [lra|]. replace (at3 q r 0) with q; [exact Pq|]. destruct q as [[q1 q2] q3], r as [[r1 r2] r3]. cbn. f_equal; [f_equal|]; ring. }
  subst code. unfold test. cbn [Ascii.eqb Bool.eqb negb orb existsb]. apply (tri_on_plane a b d n dc c L PC RG) in Pq, Pr.
  assert (T : forall x, dot3 n x = dc -> ~ in_triangle a b d x -> touching (fun _ p => point_in_polygon_3d p [a; b; d] n c) 0 x = false).
  { intros x X N. unfold touching. cbv zeta beta. destruct (pip_triangle a b d n dc c L PC RG x X) as [[-> I]|[[-> I]|[_ [I _]]]]; [exfalso|reflexivity|exfalso; apply N, boundary_in, I]. apply N. destruct I as (u & v & w & H). exists u, v, w. intuition lra. }
  rewrite (T q Pq Nq), (T r Pr Nr). reflexivity.
Qed.
(** Two triangles of the same plane that overlap like those of a six-pointed star: no test of an edge of one against the other reports anything. *)
Theorem C73_star_refuted : exists a b d a' b' d' : R * R * R,
  ~ on_a_line a b d /\ regular_triangle a b d /\ ~ on_a_line a' b' d' /\ regular_triangle a' b' d' /\
  (exists p, strictly_in_triangle a b d p /\ strictly_in_triangle a' b' d' p) /\
  (forall q r res, In (q, r) (edges_of [a'; b'; d']) -> triangle_test a b d q r res -> res = Miss) /\
  (forall q r res, In (q, r) (edges_of [a; b; d]) -> triangle_test a' b' d' q r res -> res = Miss).
Proof.
  exists (0, 0, 0), (4, 0, 0), (2, 3, 0), (0, 2, 0), (2, -1, 0), (4, 2, 0).
  assert (LC : forall x y z, 0 < z -> Rabs x < z -> Rabs y < z -> x = 0 -> y = 0 -> largest_component (x, y, z) = 2%nat).
  { intros x y z Z _ _ -> ->. destruct (largest_ok (0, 0, z)) as [C M]. specialize (M 2%nat (le_n 2)). destruct (largest_component (0, 0, z)) as [|[|[|k]]]; [| |reflexivity|lia]; cbn in M; rewrite Rabs_R0, (Rabs_pos_eq z) in M; lra. }
  assert (L1 : ~ on_a_line (0, 0, 0) (4, 0, 0) (2, 3, 0)) by (intros [X|(t & X)]; [injection X; lra|cbn in X; injection X; lra]).
  assert (L2 : ~ on_a_line (0, 2, 0) (2, -1, 0) (4, 2, 0)) by (intros [X|(t & X)]; [injection X; lra|cbn in X; injection X; lra]).
  assert (NC : forall a b d z, cross_product (vsub b a) (vsub d a) = (0, 0, z) -> 0 < z -> regular_triangle a b d).
  { intros a b d z X Z n dc c E. pose proof (eq_trans (eq_sym (proj1 (C63_triangle a b d))) E) as Y. injection Y as Y1 Y2 Y3. rewrite X in Y1, Y3. rewrite (LC 0 0 z) in Y3 by (rewrite ?Rabs_R0; lra). rewrite <- Y3, <- Y1. cbn. split; nra. }
  assert (R1 : regular_triangle (0, 0, 0) (4, 0, 0) (2, 3, 0)) by (apply (NC _ _ _ 12); [cbn; f_equal; [f_equal|]; ring|lra]).
  assert (R2 : regular_triangle (0, 2, 0) (2, -1, 0) (4, 2, 0)) by (apply (NC _ _ _ 12); [cbn; f_equal; [f_equal|]; ring|lra]).
  do 4 (split; [assumption|]). split; [|split].
  - exists (2, 1, 0). split; [exists (1/3), (1/3), (1/3)|exists (1/3), (1/3), (1/3)]; repeat (split; [lra|]); cbn; f_equal; [f_equal| |f_equal|]; field.
  - assert (O : forall x y, on_plane (0, 0, 0) (4, 0, 0) (2, 3, 0) (x, y, 0)) by (intros x y; exists ((x - 2 * (y / 3)) / 4), (y / 3); f_equal; [f_equal|]; field).
    assert (T : forall x y z, 0 <= x /\ 0 <= y /\ 0 <= z /\ x + y + z = 1 -> forall p, p = weighted (0, 0, 0) (4, 0, 0) (2, 3, 0) x y z -> snd (fst p) = 3 * z /\ fst (fst p) = 4 * y + 2 * z) by (intros x y z H p ->; cbn; lra).
    assert (N : forall p, In p [(0, 2, 0); (2, -1, 0); (4, 2, 0)] -> ~ in_triangle (0, 0, 0) (4, 0, 0) (2, 3, 0) p).
    { intros p I (x & y & z & X & Y & Z & S & E). destruct (T x y z ltac:(auto) p E) as [T1 T2]. destruct I as [<-|[<-|[<-|[]]]]; cbn in T1, T2; lra. }
    intros q r res I. cbn in I. destruct I as [I|[I|[I|[]]]]; injection I as <- <-; apply coplanar_miss; auto; apply N; cbn; auto.
  - assert (O : forall x y, on_plane (0, 2, 0) (2, -1, 0) (4, 2, 0) (x, y, 0)) by (intros x y; exists ((2 - y) / 3), ((x - 2 * ((2 - y) / 3)) / 4); f_equal; [f_equal|]; field).
    assert (T : forall x y z, 0 <= x /\ 0 <= y /\ 0 <= z /\ x + y + z = 1 -> forall p, p = weighted (0, 2, 0) (2, -1, 0) (4, 2, 0) x y z -> snd (fst p) = 2 - 3 * y /\ fst (fst p) = 4 * z + 2 * y) by (intros x y z H p ->; cbn; lra).
    assert (N : forall p, In p [(0, 0, 0); (4, 0, 0); (2, 3, 0)] -> ~ in_triangle (0, 2, 0) (2, -1, 0) (4, 2, 0) p).
    { intros p I (x & y & z & X & Y & Z & S & E). destruct (T x y z ltac:(auto) p E) as [T1 T2]. destruct I as [<-|[<-|[<-|[]]]]; cbn in T1, T2; lra. }
    intros q r res I. cbn in I. destruct I as [I|[I|[I|[]]]]; injection I as <- <-; apply coplanar_miss; auto; apply N; cbn; auto.
Qed.
