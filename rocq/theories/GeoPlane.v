(** Planes, the projection of a polygon to two dimensions, classification of segments: proofs. *)
From Coq Require Import List Reals Lra Lia Bool Ascii.
From Verif Require Import GeoModel GeoSpec GeoSeg.
Import ListNotations.
Open Scope R_scope.

Lemma dot_comm a b : dot3 a b = dot3 b a.
Proof. destruct a as [[x y] z], b as [[u v] w]. cbn. ring. Qed.
Lemma dot_product_dot a b : dot_product a b = dot3 a b.
Proof. destruct a as [[x y] z], b as [[u v] w]. cbn. ring. Qed.
Lemma dot_at3 n q r t : dot3 n (at3 q r t) = (1 - t) * dot3 n q + t * dot3 n r.
Proof. destruct n as [[x y] z], q as [[q1 q2] q3], r as [[r1 r2] r3]. cbn. ring. Qed.
Lemma orient3d_at3 a b c q r t : orient3d a b c (at3 q r t) = (1 - t) * orient3d a b c q + t * orient3d a b c r.
Proof. destruct a as [[ax ay] az], b as [[bx by_] bz], c as [[cx cy] cz], q as [[q1 q2] q3], r as [[r1 r2] r3]. cbn. ring. Qed.
Lemma at3_0 q r : at3 q r 0 = q. Proof. destruct q as [[q1 q2] q3], r as [[r1 r2] r3]. cbn. f_equal; [f_equal|]; ring. Qed.
Lemma at3_1 q r : at3 q r 1 = r. Proof. destruct q as [[q1 q2] q3], r as [[r1 r2] r3]. cbn. f_equal; [f_equal|]; ring. Qed.

(** ** the plane through three points *)
Lemma pl_solve n1 n2 n3 u1 u2 u3 v1 v2 v3 w1 w2 w3 :
  n1 = u2 * v3 - u3 * v2 -> n2 = u3 * v1 - u1 * v3 -> n3 = u1 * v2 - u2 * v1 -> (n1 <> 0 \/ n2 <> 0 \/ n3 <> 0) ->
  n1 * w1 + n2 * w2 + n3 * w3 = 0 -> exists s t, w1 = s * u1 + t * v1 /\ w2 = s * u2 + t * v2 /\ w3 = s * u3 + t * v3.
Proof.
  intros E1 E2 E3 N H. destruct N as [N|[N|N]].
  - exists ((w2 * v3 - w3 * v2) / n1), ((u2 * w3 - u3 * w2) / n1). split; [|split]; apply Rmult_eq_reg_r with n1; try exact N; field_simplify; try exact N; try (rewrite E1; ring).
    replace (w1 * n1) with (- n2 * w2 - n3 * w3) by lra. rewrite E2, E3. ring.
  - exists ((w3 * v1 - w1 * v3) / n2), ((u3 * w1 - u1 * w3) / n2). split; [|split]; apply Rmult_eq_reg_r with n2; try exact N; field_simplify; try exact N; try (rewrite E2; ring).
    replace (w2 * n2) with (- n1 * w1 - n3 * w3) by lra. rewrite E1, E3. ring.
  - exists ((w1 * v2 - w2 * v1) / n3), ((u1 * w2 - u2 * w1) / n3). split; [|split]; apply Rmult_eq_reg_r with n3; try exact N; field_simplify; try exact N; try (rewrite E3; ring).
    replace (w3 * n3) with (- n1 * w1 - n2 * w2) by lra. rewrite E1, E2. ring.
Qed.

Lemma vec3_neq (a b : vec3) : a <> b -> comp a 0 <> comp b 0 \/ comp a 1 <> comp b 1 \/ comp a 2 <> comp b 2.
Proof.
  destruct a as [[a1 a2] a3], b as [[b1 b2] b3]. cbn. intros N.
  destruct (Req_EM_T a1 b1) as [->|]; [|auto]. destruct (Req_EM_T a2 b2) as [->|]; [|auto]. destruct (Req_EM_T a3 b3) as [->|]; [|auto]. elim N; reflexivity.
Qed.

Lemma cross_zero u1 u2 u3 v1 v2 v3 : u2 * v3 - u3 * v2 = 0 -> u3 * v1 - u1 * v3 = 0 -> u1 * v2 - u2 * v1 = 0 ->
  (u1 <> 0 \/ u2 <> 0 \/ u3 <> 0) -> exists t, v1 = t * u1 /\ v2 = t * u2 /\ v3 = t * u3.
Proof.
  intros E1 E2 E3 [N|[N|N]].
  - exists (v1 / u1). split; [|split]; apply Rmult_eq_reg_r with u1; try exact N; field_simplify; try exact N; lra.
  - exists (v2 / u2). split; [|split]; apply Rmult_eq_reg_r with u2; try exact N; field_simplify; try exact N; lra.
  - exists (v3 / u3). split; [|split]; apply Rmult_eq_reg_r with u3; try exact N; field_simplify; try exact N; lra.
Qed.

Lemma not_on_a_line a b c : ~ on_a_line a b c -> let n := cross_product (vsub b a) (vsub c a) in comp n 0 <> 0 \/ comp n 1 <> 0 \/ comp n 2 <> 0.
Proof.
  intros N. cbn zeta. destruct a as [[a1 a2] a3], b as [[b1 b2] b3], c as [[c1 c2] c3]. cbn.
  destruct (Req_EM_T ((b2 - a2) * (c3 - a3) - (b3 - a3) * (c2 - a2)) 0) as [E1|]; [|auto].
  destruct (Req_EM_T ((b3 - a3) * (c1 - a1) - (b1 - a1) * (c3 - a3)) 0) as [E2|]; [|auto].
  destruct (Req_EM_T ((b1 - a1) * (c2 - a2) - (b2 - a2) * (c1 - a1)) 0) as [E3|]; [|auto].
  exfalso. apply N. assert (D : {(a1, a2, a3) = (b1, b2, b3)} + {(a1, a2, a3) <> (b1, b2, b3)}).
  { destruct (Req_EM_T a1 b1) as [->|H]; [|right; intros K; injection K; auto]. destruct (Req_EM_T a2 b2) as [->|H]; [|right; intros K; injection K; auto]. destruct (Req_EM_T a3 b3) as [->|H]; [|right; intros K; injection K; auto]. left; reflexivity. }
  destruct D as [D|D]; [left; exact D|right]. apply vec3_neq in D. cbn in D.
  destruct (cross_zero (b1 - a1) (b2 - a2) (b3 - a3) (c1 - a1) (c2 - a2) (c3 - a3) E1 E2 E3) as (t & T1 & T2 & T3).
  { destruct D as [D|[D|D]]; [left|right; left|right; right]; lra. }
  exists t. cbn. f_equal; [f_equal|]; lra.
Qed.

Lemma orient3d_on_plane a b c x : ~ on_a_line a b c -> (orient3d a b c x = 0 <-> on_plane a b c x).
Proof.
  intros N. apply not_on_a_line in N. cbn zeta in N. destruct a as [[a1 a2] a3], b as [[b1 b2] b3], c as [[c1 c2] c3], x as [[x1 x2] x3]. cbn in *. split.
  - intros O. destruct (pl_solve _ _ _ (b1 - a1) (b2 - a2) (b3 - a3) (c1 - a1) (c2 - a2) (c3 - a3) (x1 - a1) (x2 - a2) (x3 - a3) eq_refl eq_refl eq_refl N) as (s & t & H1 & H2 & H3); [lra|].
    exists s, t. f_equal; [f_equal|]; lra.
  - intros (s & t & E). injection E as -> -> ->. ring.
Qed.

(** ** the code given by the two orientations, for any affine function *)
Lemma side_code_ok pl f q r : (forall x, f x = 0 <-> pl x) -> (forall t, f (at3 q r t) = (1 - t) * f q + t * f r) -> meets pl q r (side_code (f q) (f r)).
Proof.
  intros P A. unfold side_code.
  destruct (eqb_spec' (f q) 0) as [[-> Q]|[-> Q]], (eqb_spec' (f r) 0) as [[-> S]|[-> S]]; cbn [andb].
  - apply meets_p; apply P; assumption.
  - apply meets_q; rewrite <- P; assumption.
  - apply meets_r; rewrite <- P; assumption.
  - destruct (ltb_spec (f r) 0) as [[-> H1]|[-> H1]], (ltb_spec (f q) 0) as [[-> H2]|[-> H2]], (ltb_spec 0 (f r)) as [[-> H3]|[-> H3]], (ltb_spec 0 (f q)) as [[-> H4]|[-> H4]];
      cbn [andb orb]; try lra.
    + apply meets_0. intros t T K. apply P in K. rewrite A in K. nra.
    + apply meets_1; try (rewrite <- P; assumption). exists (f q / (f q - f r)). assert (0 < f q - f r) by lra. split; [split|].
      * apply Rdiv_lt_0_compat; lra.
      * apply Rmult_lt_reg_r with (f q - f r); [lra|]. unfold Rdiv. rewrite Rmult_assoc, Rinv_l by lra. lra.
      * apply P. rewrite A. field. lra.
    + apply meets_1; try (rewrite <- P; assumption). exists (- f q / (f r - f q)). assert (0 < f r - f q) by lra. split; [split|].
      * apply Rdiv_lt_0_compat; lra.
      * apply Rmult_lt_reg_r with (f r - f q); [lra|]. unfold Rdiv. rewrite Rmult_assoc, Rinv_l by lra. lra.
      * apply P. rewrite A. field. lra.
    + apply meets_0. intros t T K. apply P in K. rewrite A in K. nra.
Qed.

(** ** three points of a plane with normal [n] *)
Lemma plane_of_three n a b c x : n <> (0, 0, 0) -> ~ on_a_line a b c -> dot3 n a = dot3 n b -> dot3 n a = dot3 n c ->
  (on_plane a b c x <-> dot3 n x = dot3 n a).
Proof.
  intros N L B C. split.
  - intros (s & t & ->). destruct n as [[n1 n2] n3], a as [[a1 a2] a3], b as [[b1 b2] b3], c as [[c1 c2] c3]. cbn in *.
    replace (_ + _ + _) with ((1 - s - t) * (n1 * a1 + n2 * a2 + n3 * a3) + s * (n1 * b1 + n2 * b2 + n3 * b3) + t * (n1 * c1 + n2 * c2 + n3 * c3)) by ring.
    rewrite <- B, <- C. ring.
  - intros E. apply (orient3d_on_plane a b c x L). apply not_on_a_line in L. cbn zeta in L.
    assert (Nz : comp n 0 <> 0 \/ comp n 1 <> 0 \/ comp n 2 <> 0) by (apply (vec3_neq n (0, 0, 0)) in N; exact N).
    destruct n as [[n1 n2] n3], a as [[a1 a2] a3], b as [[b1 b2] b3], c as [[c1 c2] c3], x as [[x1 x2] x3]. cbn in *.
    (* w = x - a, u = b - a, v = c - a are orthogonal to n *)
    set (u1 := b1 - a1) in *. set (u2 := b2 - a2) in *. set (u3 := b3 - a3) in *. set (v1 := c1 - a1) in *. set (v2 := c2 - a2) in *. set (v3 := c3 - a3) in *.
    set (w1 := x1 - a1). set (w2 := x2 - a2). set (w3 := x3 - a3).
    assert (Hu : n1 * u1 + n2 * u2 + n3 * u3 = 0) by (unfold u1, u2, u3; lra). assert (Hv : n1 * v1 + n2 * v2 + n3 * v3 = 0) by (unfold v1, v2, v3; lra).
    assert (Hw : n1 * w1 + n2 * w2 + n3 * w3 = 0) by (unfold w1, w2, w3; lra).
    replace (_ + _ + _) with (- ((u2 * v3 - u3 * v2) * w1 + (u3 * v1 - u1 * v3) * w2 + (u1 * v2 - u2 * v1) * w3)) by (unfold u1, u2, u3, v1, v2, v3, w1, w2, w3; ring).
    clearbody u1 u2 u3 v1 v2 v3 w1 w2 w3.
    destruct Nz as [K|[K|K]].
    + apply Rmult_eq_reg_l with n1; [|exact K]. replace (n1 * - _) with (- (w1 * (u2 * v3 - u3 * v2) * n1 + w2 * ((n1 * v1) * u3 - (n1 * u1) * v3) + w3 * ((n1 * u1) * v2 - (n1 * v1) * u2))) by ring.
      replace (n1 * u1) with (- n2 * u2 - n3 * u3) by lra. replace (n1 * v1) with (- n2 * v2 - n3 * v3) by lra.
      replace (w1 * _ * n1) with ((u2 * v3 - u3 * v2) * (n1 * w1)) by ring. replace (n1 * w1) with (- n2 * w2 - n3 * w3) by lra. ring.
    + apply Rmult_eq_reg_l with n2; [|exact K]. replace (n2 * - _) with (- (w1 * ((n2 * u2) * v3 - (n2 * v2) * u3) + (u3 * v1 - u1 * v3) * (n2 * w2) + w3 * ((n2 * v2) * u1 - (n2 * u2) * v1))) by ring.
      replace (n2 * u2) with (- n1 * u1 - n3 * u3) by lra. replace (n2 * v2) with (- n1 * v1 - n3 * v3) by lra. replace (n2 * w2) with (- n1 * w1 - n3 * w3) by lra. ring.
    + apply Rmult_eq_reg_l with n3; [|exact K]. replace (n3 * - _) with (- (w1 * ((n3 * v3) * u2 - (n3 * u3) * v2) + w2 * ((n3 * u3) * v1 - (n3 * v3) * u1) + (u1 * v2 - u2 * v1) * (n3 * w3))) by ring.
      replace (n3 * u3) with (- n1 * u1 - n2 * u2) by lra. replace (n3 * v3) with (- n1 * v1 - n2 * v2) by lra. replace (n3 * w3) with (- n1 * w1 - n2 * w2) by lra. ring.
Qed.
