(** The projection of a polygon to two dimensions: proofs. *)
From Coq Require Import List Reals Lra Lia Bool Ascii.
From Verif Require Import GeoModel GeoSpec GeoSeg GeoPlane.
Import ListNotations.
Open Scope R_scope.

Lemma row_times_sub m i p q : row_times m i (vsub p q) = row_times m i p - row_times m i q.
Proof. destruct p as [[p1 p2] p3], q as [[q1 q2] q3]. unfold row_times. cbn [comp vsub]. ring. Qed.
Lemma project_sub n c p q : project n c (vsub p q) = (px (project n c p) - px (project n c q), py (project n c p) - py (project n c q)).
Proof. unfold project. destruct (kept_rows c) as [i j]. cbn [px py fst snd]. rewrite !row_times_sub. reflexivity. Qed.
Lemma row_times_at3 m i p q t : row_times m i (at3 p q t) = row_times m i p + t * (row_times m i q - row_times m i p).
Proof. destruct p as [[p1 p2] p3], q as [[q1 q2] q3]. unfold row_times. cbn [comp at3]. ring. Qed.
Lemma project_at3 n c p q t : project n c (at3 p q t) = at2 (project n c p) (project n c q) t.
Proof. unfold project, at2. destruct (kept_rows c) as [i j]. cbn [fst snd]. rewrite !row_times_at3. reflexivity. Qed.

Lemma sign_sq x : x <> 0 -> sign x * sign x = 1 /\ sign x <> 0.
Proof. intros N. unfold sign. destruct (ltb_spec 0 x) as [[-> H]|[-> H]]; [split; lra|]. destruct (ltb_spec x 0) as [[-> H']|[-> H']]; [split; lra|lra]. Qed.

Lemma len_pos n : n <> (0, 0, 0) -> 0 < sqrt (dot_product n n).
Proof.
  intros N. apply sqrt_lt_R0. rewrite dot_product_dot. apply (vec3_neq n (0, 0, 0)) in N. destruct n as [[x y] z]. cbn in *.
  assert (0 <= x * x) by nra. assert (0 <= y * y) by nra. assert (0 <= z * z) by nra.
  destruct N as [N|[N|N]]; [assert (0 < x * x) by nra|assert (0 < y * y) by nra|assert (0 < z * z) by nra]; lra.
Qed.

(** the projection of a vector of the plane *)
Definition proj_vec (n : vec3) (c : nat) (u : vec3) : vec2 :=
  let '(n1, n2, n3) := n in let '(u1, u2, u3) := u in
  match c with
  | O => (u2 + 2 * n2 / n1 * u1, - u3 + 2 * n3 / n1 * u1)
  | S O => (- u1 + 2 * n1 / n2 * u2, - u3 + 2 * n3 / n2 * u2)
  | _ => (- u1 + 2 * n1 / n3 * u3, u2 + 2 * n2 / n3 * u3)
  end.

Lemma row_rot (v : vec3) k i u : k <> 0 -> (i <= 2)%nat ->
  row_times (fun i j => comp v i * comp v j / k * 2 - refl i j) i u = comp v i * dot3 v u / k * 2 - refl i i * comp u i.
Proof. intros K I. destruct v as [[v1 v2] v3], u as [[u1 u2] u3]. destruct i as [|[|[|i]]]; [| | |lia]; unfold row_times; cbn [comp refl dot3]; field; exact K. Qed.

Lemma project_vec n c : (c <= 2)%nat -> comp n c <> 0 ->
  (forall u, dot3 n u = 0 -> project n c u = proj_vec n c u) \/
  ((forall i, (i <= 2)%nat -> i <> c -> comp n i = 0) /\ forall u, project n c u = let '(i, j) := kept_rows c in (refl i i * comp u i, refl j j * comp u j)).
Proof.
  intros C N.
  assert (N0 : n <> (0, 0, 0)) by (intros ->; destruct c as [|[|c]]; cbn in N; lra).
  pose proof (len_pos n N0) as L. set (l := sqrt (dot_product n n)) in *.
  assert (A : normalize n = vdiv n l) by reflexivity. clearbody l.
  destruct (sign_sq (comp n c) N) as [S1 S2]. 
  destruct n as [[n1 n2] n3]. unfold project, rotation.
  assert (Dl : forall u1 u2 u3, n1 * u1 + n2 * u2 + n3 * u3 = 0 -> n1 / l * u1 + n2 / l * u2 + n3 / l * u3 = 0) by (intros u1 u2 u3 D; replace 0 with (0 / l) by (field; lra); rewrite <- D; field; lra).
  rewrite A. clear A. cbn [vdiv]. unfold basis. set (s := sign _) in *. clearbody s.
  destruct c as [|[|[|c]]]; [| | |lia]; cbn [comp kept_rows] in *.
  - destruct (eqb (n1 / l) s && eqb (n2 / l) 0 && eqb (n3 / l) 0) eqn:E.
    + right. rewrite !andb_true_iff, !eqb_true in E. destruct E as [[E1 E2] E3]. split.
      * intros i I1 I2. destruct i as [|[|[|i]]]; [lia| | |lia]; cbn; [replace n2 with (n2 / l * l) by (field; lra); rewrite E2; ring|replace n3 with (n3 / l * l) by (field; lra); rewrite E3; ring].
      * intros [[u1 u2] u3]. unfold row_times. cbn [comp refl]. f_equal; ring.
    + left. intros [[u1 u2] u3] D. cbn [dot3] in D. apply Dl in D. cbn [vadd dot_product]. assert (K : 0 + n1 / l * s + n2 / l * 0 + n3 / l * 0 = n1 / l * s) by ring. rewrite K. clear K.
      assert (K : n1 / l * s <> 0) by (intros Z; apply Rmult_integral in Z; destruct Z as [Z|Z]; [apply N; replace n1 with (n1 / l * l) by (field; lra); rewrite Z; ring|auto]).
      rewrite !row_rot by (auto; lia). cbn [comp refl dot3 proj_vec].
      match goal with |- context [?A * u1 + ?B * u2 + ?C * u3] => replace (A * u1 + B * u2 + C * u3) with (s * u1 + (n1 / l * u1 + n2 / l * u2 + n3 / l * u3)) by ring end. rewrite D, Rplus_0_r.
      f_equal; field; repeat split; lra.
  - destruct (eqb (n1 / l) 0 && eqb (n2 / l) s && eqb (n3 / l) 0) eqn:E.
    + right. rewrite !andb_true_iff, !eqb_true in E. destruct E as [[E1 E2] E3]. split.
      * intros i I1 I2. destruct i as [|[|[|i]]]; [|lia| |lia]; cbn; [replace n1 with (n1 / l * l) by (field; lra); rewrite E1; ring|replace n3 with (n3 / l * l) by (field; lra); rewrite E3; ring].
      * intros [[u1 u2] u3]. unfold row_times. cbn [comp refl]. f_equal; ring.
    + left. intros [[u1 u2] u3] D. cbn [dot3] in D. apply Dl in D. cbn [vadd dot_product]. assert (K : 0 + n1 / l * 0 + n2 / l * s + n3 / l * 0 = n2 / l * s) by ring. rewrite K. clear K.
      assert (K : n2 / l * s <> 0) by (intros Z; apply Rmult_integral in Z; destruct Z as [Z|Z]; [apply N; replace n2 with (n2 / l * l) by (field; lra); rewrite Z; ring|auto]).
      rewrite !row_rot by (auto; lia). cbn [comp refl dot3 proj_vec].
      match goal with |- context [?A * u1 + ?B * u2 + ?C * u3] => replace (A * u1 + B * u2 + C * u3) with (s * u2 + (n1 / l * u1 + n2 / l * u2 + n3 / l * u3)) by ring end. rewrite D, Rplus_0_r.
      f_equal; field; repeat split; lra.
  - destruct (eqb (n1 / l) 0 && eqb (n2 / l) 0 && eqb (n3 / l) s) eqn:E.
    + right. rewrite !andb_true_iff, !eqb_true in E. destruct E as [[E1 E2] E3]. split.
      * intros i I1 I2. destruct i as [|[|[|i]]]; [| |lia|lia]; cbn; [replace n1 with (n1 / l * l) by (field; lra); rewrite E1; ring|replace n2 with (n2 / l * l) by (field; lra); rewrite E2; ring].
      * intros [[u1 u2] u3]. unfold row_times. cbn [comp refl]. f_equal; ring.
    + left. intros [[u1 u2] u3] D. cbn [dot3] in D. apply Dl in D. cbn [vadd dot_product]. assert (K : 0 + n1 / l * 0 + n2 / l * 0 + n3 / l * s = n3 / l * s) by ring. rewrite K. clear K.
      assert (K : n3 / l * s <> 0) by (intros Z; apply Rmult_integral in Z; destruct Z as [Z|Z]; [apply N; replace n3 with (n3 / l * l) by (field; lra); rewrite Z; ring|auto]).
      rewrite !row_rot by (auto; lia). cbn [comp refl dot3 proj_vec].
      match goal with |- context [?A * u1 + ?B * u2 + ?C * u3] => replace (A * u1 + B * u2 + C * u3) with (s * u3 + (n1 / l * u1 + n2 / l * u2 + n3 / l * u3)) by ring end. rewrite D, Rplus_0_r.
      f_equal; field; repeat split; lra.
Qed.

Lemma regular_comp n c : (c <= 2)%nat -> regular n c -> comp n c <> 0.
Proof. intros C. destruct n as [[x y] z]. destruct c as [|[|[|c]]]; [| | |lia]; cbn; tauto. Qed.

(** the cross product of the projections of two vectors of the plane *)
Definition cross2 (u v : vec2) : R := px u * py v - py u * px v.
Lemma project_cross n c u v : (c <= 2)%nat -> comp n c <> 0 -> dot3 n u = 0 -> dot3 n v = 0 ->
  exists k, (k <> 0 <-> regular n c) /\ cross2 (project n c u) (project n c v) = k * comp (cross_product u v) c.
Proof.
  intros C N U V. assert (N2 : comp n c * comp n c <> 0) by (intros Z; apply Rmult_integral in Z; tauto).
  destruct (project_vec n c C N) as [P|[Z P]].
  - rewrite (P u U), (P v V). clear P. destruct n as [[n1 n2] n3], u as [[u1 u2] u3], v as [[v1 v2] v3]. cbn [dot3] in U, V. destruct c as [|[|[|c]]]; [| | |lia]; cbn [comp cross_product proj_vec regular] in *; unfold cross2, px, py; cbn [fst snd].
    + exists (- (n1 * n1 + 2 * (n3 * n3 - n2 * n2)) / (n1 * n1)). split.
      * split; [intros K; split; [exact N|]; intros Z; apply K; rewrite Z; field; exact N|]. intros [_ K] Z. apply K. apply Rmult_eq_reg_r with (- / (n1 * n1)); [|apply Ropp_neq_0_compat, Rinv_neq_0_compat; exact N2]. unfold Rdiv in Z. lra.
      * replace u1 with (- (n2 * u2 + n3 * u3) / n1) by (apply Rmult_eq_reg_r with n1; [field_simplify; [lra|exact N]|exact N]). replace v1 with (- (n2 * v2 + n3 * v3) / n1) by (apply Rmult_eq_reg_r with n1; [field_simplify; [lra|exact N]|exact N]). field. exact N.
    + exists (- (n2 * n2 + 2 * (n1 * n1 + n3 * n3)) / (n2 * n2)). split.
      * split; [intros _; exact N|]. intros _ Z. assert (n2 * n2 + 2 * (n1 * n1 + n3 * n3) = 0); [|nra]. apply Rmult_eq_reg_r with (- / (n2 * n2)); [|apply Ropp_neq_0_compat, Rinv_neq_0_compat; exact N2]. unfold Rdiv in Z. lra.
      * replace u2 with (- (n1 * u1 + n3 * u3) / n2) by (apply Rmult_eq_reg_r with n2; [field_simplify; [lra|exact N]|exact N]). replace v2 with (- (n1 * v1 + n3 * v3) / n2) by (apply Rmult_eq_reg_r with n2; [field_simplify; [lra|exact N]|exact N]). field. exact N.
    + exists (- (n3 * n3 + 2 * (n1 * n1 - n2 * n2)) / (n3 * n3)). split.
      * split; [intros K; split; [exact N|]; intros Z; apply K; rewrite Z; field; exact N|]. intros [_ K] Z. apply K. apply Rmult_eq_reg_r with (- / (n3 * n3)); [|apply Ropp_neq_0_compat, Rinv_neq_0_compat; exact N2]. unfold Rdiv in Z. lra.
      * replace u3 with (- (n1 * u1 + n2 * u2) / n3) by (apply Rmult_eq_reg_r with n3; [field_simplify; [lra|exact N]|exact N]). replace v3 with (- (n1 * v1 + n2 * v2) / n3) by (apply Rmult_eq_reg_r with n3; [field_simplify; [lra|exact N]|exact N]). field. exact N.
  - rewrite (P u), (P v). clear P. pose proof (Z 0%nat) as Z0. pose proof (Z 1%nat) as Z1. pose proof (Z 2%nat) as Z2. clear Z.
    destruct n as [[n1 n2] n3], u as [[u1 u2] u3], v as [[v1 v2] v3]. destruct c as [|[|[|c]]]; [| | |lia]; cbn [comp cross_product regular kept_rows] in *; unfold cross2, px, py; cbn [fst snd comp refl].
    + rewrite Z1, Z2 by lia. exists (-1). split; [split; [intros _; split; lra|intros _; lra]|]. ring.
    + exists (-1). split; [split; [intros _; lra|intros _; lra]|]. ring.
    + rewrite Z0, Z1 by lia. exists (-1). split; [split; [intros _; split; lra|intros _; lra]|]. ring.
Qed.

Lemma orient2d_cross n c a b d : orient2d (project n c a) (project n c b) (project n c d) = cross2 (project n c (vsub a d)) (project n c (vsub b d)).
Proof. rewrite !project_sub. unfold orient2d, cross2, px, py. cbn [fst snd]. ring. Qed.

Lemma at2_orient a b t : orient2d a b (at2 a b t) = 0.
Proof. unfold orient2d, at2, px, py. cbn [fst snd]. ring. Qed.
Lemma on_a_line_orient n c a b d : on_a_line a b d -> orient2d (project n c a) (project n c b) (project n c d) = 0.
Proof. intros [->|(t & ->)]; [unfold orient2d; ring|]. rewrite project_at3. apply at2_orient. Qed.

Lemma vec3_eq_dec (a b : vec3) : {a = b} + {a <> b}.
Proof.
  destruct a as [[a1 a2] a3], b as [[b1 b2] b3].
  destruct (Req_EM_T a1 b1) as [->|H]; [|right; intros K; injection K; auto]. destruct (Req_EM_T a2 b2) as [->|H]; [|right; intros K; injection K; auto]. destruct (Req_EM_T a3 b3) as [->|H]; [|right; intros K; injection K; auto]. left; reflexivity.
Qed.

(** vectors of the plane whose cross product has no component along [c] are collinear *)
Lemma cross_comp_zero n c a b d : (c <= 2)%nat -> comp n c <> 0 -> dot3 n a = dot3 n d -> dot3 n b = dot3 n d ->
  comp (cross_product (vsub a d) (vsub b d)) c = 0 -> on_a_line a b d.
Proof.
  intros C N A B Z. destruct (vec3_eq_dec a b) as [->|Nab]; [left; reflexivity|right].
  assert (E : cross_product (vsub a d) (vsub b d) = (0, 0, 0)).
  { destruct n as [[n1 n2] n3], a as [[a1 a2] a3], b as [[b1 b2] b3], d as [[d1 d2] d3]. cbn in A, B.
    cbn [vsub] in *. set (u1 := a1 - d1) in *. set (u2 := a2 - d2) in *. set (u3 := a3 - d3) in *. set (v1 := b1 - d1) in *. set (v2 := b2 - d2) in *. set (v3 := b3 - d3) in *.
    assert (Hu : n1 * u1 + n2 * u2 + n3 * u3 = 0) by (unfold u1, u2, u3; lra). assert (Hv : n1 * v1 + n2 * v2 + n3 * v3 = 0) by (unfold v1, v2, v3; lra). clearbody u1 u2 u3 v1 v2 v3.
    assert (K : n2 * (u1 * v2 - u2 * v1) = n3 * (u3 * v1 - u1 * v3)). { replace (n2 * _) with (u1 * (n2 * v2) - (n2 * u2) * v1) by ring. replace (n2 * v2) with (- n1 * v1 - n3 * v3) by lra. replace (n2 * u2) with (- n1 * u1 - n3 * u3) by lra. ring. }
    assert (K' : n3 * (u2 * v3 - u3 * v2) = n1 * (u1 * v2 - u2 * v1)). { replace (n3 * _) with (u2 * (n3 * v3) - (n3 * u3) * v2) by ring. replace (n3 * v3) with (- n1 * v1 - n2 * v2) by lra. replace (n3 * u3) with (- n1 * u1 - n2 * u2) by lra. ring. }
    assert (K'' : n1 * (u3 * v1 - u1 * v3) = n2 * (u2 * v3 - u3 * v2)). { replace (n1 * _) with (u3 * (n1 * v1) - (n1 * u1) * v3) by ring. replace (n1 * v1) with (- n2 * v2 - n3 * v3) by lra. replace (n1 * u1) with (- n2 * u2 - n3 * u3) by lra. ring. }
    destruct c as [|[|[|c]]]; [| | |lia]; cbn [comp cross_product] in *; rewrite Z in *; f_equal; try f_equal; try reflexivity;
      (apply Rmult_eq_reg_l with n1; [lra|assumption]) || (apply Rmult_eq_reg_l with n2; [lra|assumption]) || (apply Rmult_eq_reg_l with n3; [lra|assumption]). }
  apply vec3_neq in Nab. destruct a as [[a1 a2] a3], b as [[b1 b2] b3], d as [[d1 d2] d3]. cbn in Nab. cbn in E. injection E as E1 E2 E3.
  destruct (cross_zero (b1 - a1) (b2 - a2) (b3 - a3) (d1 - a1) (d2 - a2) (d3 - a3)) as (t & T1 & T2 & T3); try lra.
  exists t. cbn. f_equal; [f_equal|]; lra.
Qed.

Lemma regular_orient n c a b d : (c <= 2)%nat -> regular n c -> dot3 n a = dot3 n d -> dot3 n b = dot3 n d ->
  (orient2d (project n c a) (project n c b) (project n c d) = 0 <-> on_a_line a b d).
Proof.
  intros C Rg A B. split; [|apply on_a_line_orient]. rewrite orient2d_cross. pose proof (regular_comp n c C Rg) as N.
  assert (dsub : forall x y, dot3 n x = dot3 n y -> dot3 n (vsub x y) = 0) by (intros x y; destruct n as [[n1 n2] n3], x as [[x1 x2] x3], y as [[y1 y2] y3]; cbn; lra).
  destruct (project_cross n c (vsub a d) (vsub b d) C N (dsub _ _ A) (dsub _ _ B)) as (k & K & E). rewrite E. intros Z. apply Rmult_integral in Z. destruct Z as [Z|Z]; [exfalso; apply K in Rg; contradiction|].
  apply (cross_comp_zero n c); assumption.
Qed.

(** the projection is one-to-one on a plane *)
Lemma regular_injective n c p q : (c <= 2)%nat -> regular n c -> dot3 n p = dot3 n q -> project n c p = project n c q -> p = q.
Proof.
  intros C Rg D E. pose proof (regular_comp n c C Rg) as N.
  destruct (vec3_eq_dec p q) as [|Npq]; [assumption|exfalso].
  (* a third point of the plane, away from the line p q *)
  set (u := vsub p q). set (w := cross_product n u).
  assert (dsub : dot3 n u = 0) by (unfold u; destruct n as [[n1 n2] n3], p as [[x1 x2] x3], q as [[y1 y2] y3]; cbn in *; lra).
  assert (dw : dot3 n w = 0) by (unfold w; destruct n as [[n1 n2] n3], u as [[x1 x2] x3]; cbn; ring).
  assert (Pu : project n c u = (0, 0)) by (unfold u; rewrite project_sub, E; f_equal; ring).
  destruct (project_cross n c u w C N dsub dw) as (k & K & X). rewrite Pu in X. unfold cross2 in X. cbn [px py fst snd] in X.
  assert (K0 : k <> 0) by tauto. assert (Z : comp (cross_product u w) c = 0) by (apply Rmult_eq_reg_l with k; [lra|assumption]).
  (* u x (n x u) = n (u.u) *)
  assert (H : comp (cross_product u w) c = comp n c * dot3 u u). 
  { unfold w. clearbody u. destruct n as [[n1 n2] n3], u as [[u1 u2] u3]. cbn in dsub. destruct c as [|[|[|c]]]; [| | |lia]; cbn.
    - replace (_ - _) with (n1 * (u1 * u1 + u2 * u2 + u3 * u3) - u1 * (n1 * u1 + n2 * u2 + n3 * u3)) by ring. rewrite dsub. ring.
    - replace (_ - _) with (n2 * (u1 * u1 + u2 * u2 + u3 * u3) - u2 * (n1 * u1 + n2 * u2 + n3 * u3)) by ring. rewrite dsub. ring.
    - replace (_ - _) with (n3 * (u1 * u1 + u2 * u2 + u3 * u3) - u3 * (n1 * u1 + n2 * u2 + n3 * u3)) by ring. rewrite dsub. ring. }
  rewrite H in Z. apply Rmult_integral in Z. destruct Z as [Z|Z]; [contradiction|]. apply vec3_neq in Npq. unfold u in Z. destruct p as [[x1 x2] x3], q as [[y1 y2] y3]. cbn in Z, Npq.
  assert (0 <= (x1 - y1) * (x1 - y1)) by apply Rle_0_sqr. assert (0 <= (x2 - y2) * (x2 - y2)) by apply Rle_0_sqr. assert (0 <= (x3 - y3) * (x3 - y3)) by apply Rle_0_sqr.
  destruct Npq as [M|[M|M]]; [assert (x1 - y1 = 0) by nra|assert (x2 - y2 = 0) by nra|assert (x3 - y3 = 0) by nra]; lra.
Qed.

(** ** the candidate triples *)
Lemma loop_k_end f xs i j k acc : (length xs <= k)%nat -> loop_k f xs i j k acc = (acc, k).
Proof. intros H. destruct f; cbn [loop_k]; [reflexivity|]. destruct (Nat.ltb_spec k (length xs)); [lia|reflexivity]. Qed.
Lemma loop_j_end f xs i j k acc : (length xs <= k)%nat -> exists j', loop_j f xs i j k acc = (acc, j', k).
Proof.
  intros H. revert j. induction f as [|f IH]; intros j; cbn [loop_j]; [eauto|]. destruct (Nat.ltb_spec j (length xs)); [|eauto].
  rewrite loop_k_end by exact H. apply IH.
Qed.
Lemma loop_i_end f xs i j k acc : (length xs <= k)%nat -> loop_i f xs i j k acc = acc.
Proof.
  intros H. revert i j. induction f as [|f IH]; intros i j; cbn [loop_i]; [reflexivity|]. destruct (Nat.ltb_spec i (length xs)); [|reflexivity].
  destruct (loop_j_end (length xs) xs i j k acc H) as (j' & ->). apply IH.
Qed.
Lemma loop_j_step f xs i j k acc : (j < length xs)%nat -> loop_j (S f) xs i j k acc = let '(acc', k') := loop_k (length xs) xs i j k acc in loop_j f xs i (S j) k' acc'.
Proof. intros H. cbn [loop_j]. destruct (Nat.ltb_spec j (length xs)); [reflexivity|lia]. Qed.
Lemma loop_i_step f xs i j k acc : (i < length xs)%nat -> loop_i (S f) xs i j k acc = let '(acc', j', k') := loop_j (length xs) xs i j k acc in loop_i f xs (S i) j' k' acc'.
Proof. intros H. cbn [loop_i]. destruct (Nat.ltb_spec i (length xs)); [reflexivity|lia]. Qed.
Definition cand (xs : list vec2) (k : nat) := orient2d (nth 0 xs (0, 0)) (nth 1 xs (0, 0)) (nth k xs (0, 0)).
Lemma loop_k_in f xs k acc : (length xs <= f + k)%nat ->
  let r := loop_k f xs 0 1 k acc in (length xs <= snd r \/ k = snd r)%nat /\ (k <= length xs -> snd r = length xs)%nat /\
    forall x, In x (fst r) <-> In x acc \/ exists k', (k <= k' < length xs)%nat /\ cand xs k' <> 0 /\ x = (0%nat, 1%nat, k', cand xs k').
Proof.
  revert k acc. induction f as [|f IH]; intros k acc H; cbn [loop_k]; cbn zeta.
  - cbn [fst snd]. split; [lia|]. split; [lia|]. intros x. split; [auto|]. intros [?|(k' & ? & _)]; [assumption|lia].
  - destruct (Nat.ltb_spec k (length xs)) as [L|L].
    + fold (cand xs k). destruct (IH (S k) (if eqb (cand xs k) 0 then acc else acc ++ [(0%nat, 1%nat, k, cand xs k)])) as (I1 & I2 & I3); [lia|].
      split; [lia|]. split; [lia|]. intros x. rewrite I3. destruct (eqb_spec' (cand xs k) 0) as [[-> E]|[-> E]].
      * split; [intros [?|(k' & K & Nz & ->)]; [auto|right; exists k'; split; [lia|auto]]|intros [?|(k' & K & Nz & ->)]; [auto|right; exists k'; split; [|auto]]].
        destruct (Nat.eq_dec k k') as [<-|]; [contradiction|lia].
      * rewrite in_app_iff. cbn [In]. split.
        -- intros [[?|[<-|[]]]|(k' & K & Nz & ->)]; [auto|right; exists k; split; [lia|auto]|right; exists k'; split; [lia|auto]].
        -- intros [?|(k' & K & Nz & ->)]; [auto|]. destruct (Nat.eq_dec k k') as [<-|]; [auto|]. right. exists k'. split; [lia|auto].
    + cbn [fst snd]. split; [lia|]. split; [lia|]. intros x. split; [auto|]. intros [?|(k' & ? & _)]; [assumption|lia].
Qed.

Lemma triplets_in xs x : (2 <= length xs)%nat ->
  (In x (triplets xs) <-> exists k, (2 <= k < length xs)%nat /\ cand xs k <> 0 /\ x = (0%nat, 1%nat, k, cand xs k)).
Proof.
  intros L. unfold triplets. destruct (length xs) as [|[|m]] eqn:E; [lia|lia|].
  rewrite loop_i_step by lia. rewrite E. rewrite loop_j_step by lia.
  destruct (loop_k_in (length xs) xs 2 []) as (I1 & I2 & I3); [lia|]. destruct (loop_k (length xs) xs 0 1 2 []) as [acc k]. cbn [fst snd] in *.
  destruct (loop_j_end (S m) xs 0 2 k acc) as (j' & ->); [lia|]. rewrite loop_i_end by lia. rewrite I3, E. cbn [In]. split; [intros [[]|H]; exact H|auto].
Qed.

(** a largest element exists *)
Lemma largest_exists (l : list (nat * nat * nat * R)) : l <> [] -> exists x, In x l /\ forall y, In y l -> Rabs (snd y) <= Rabs (snd x).
Proof.
  induction l as [|a l IH]; [congruence|]. intros _. destruct l as [|b l'].
  - exists a. split; [left; reflexivity|]. intros y [<-|[]]. lra.
  - destruct IH as (x & X & M); [discriminate|]. destruct (Rle_dec (Rabs (snd a)) (Rabs (snd x))) as [H|H].
    + exists x. split; [right; exact X|]. intros y [<-|Y]; [exact H|apply M, Y].
    + exists a. split; [left; reflexivity|]. intros y [<-|Y]; [lra|]. apply M in Y. lra.
Qed.
Lemma best_exists l : exists r, best_triplet l r.
Proof.
  destruct l as [|a l]; [exists None; constructor; reflexivity|]. destruct (largest_exists (a :: l)) as ([[[i j] k] o] & X & M); [discriminate|].
  exists (Some (i, j, k)). econstructor; [exact X|]. intros i' j' k' o' H. exact (M _ H).
Qed.

(** ** the three vertices of a polygon *)
Lemma three_vertices_ok n c (ps : list vec3) a b d : n <> (0, 0, 0) -> planar n ps -> (forall x y z, ps = [x; y; z] -> ~ on_a_line x y z) ->
  three_vertices n c ps (Some (a, b, d)) ->
  ~ on_a_line a b d /\ In a ps /\ In b ps /\ In d ps /\ forall p x, In p ps -> (orient3d a b d x = 0 <-> dot3 n x = dot3 n p).
Proof.
  intros N Pl T3 H.
  assert (K : ~ on_a_line a b d /\ In a ps /\ In b ps /\ In d ps).
  { inversion H as [a' b' d' E|i j k a' b' d' L B Ei Ej Ek|]; subst.
    - split; [apply T3; reflexivity|]. cbn. tauto.
    - split; [|split; [|split]; eapply nth_error_In; eassumption].
      inversion B as [|i' j' k' o I M]; subst. apply triplets_in in I; [|rewrite map_length; lia].
      destruct I as (k' & Kr & Nz & E). injection E as -> -> -> ->. unfold cand in Nz.
      rewrite (nth_indep _ (0, 0) (project n c (0, 0, 0))) in Nz by (rewrite map_length; lia). rewrite (nth_indep (map _ _) (0, 0) (project n c (0, 0, 0)) (n:=1)) in Nz by (rewrite map_length; lia). rewrite (nth_indep (map _ _) (0, 0) (project n c (0, 0, 0)) (n:=k')) in Nz by exact (proj2 Kr).
      rewrite !map_nth in Nz. rewrite (nth_error_nth _ _ _ Ei), (nth_error_nth _ _ _ Ej), (nth_error_nth _ _ _ Ek) in Nz.
      intros O. apply Nz. apply on_a_line_orient, O. }
  destruct K as (L & A & B & D). do 4 (split; [assumption|]). intros p x P. rewrite (orient3d_on_plane a b d x L). rewrite (plane_of_three n a b d x N L (Pl a b A B) (Pl a d A D)). rewrite (Pl a p A P). reflexivity.
Qed.

Lemma project_singular n c (ps : list vec3) : (c <= 2)%nat -> comp n c <> 0 -> ~ regular n c -> planar n ps -> (3 <= length ps)%nat -> triplets (map (project n c) ps) = [].
Proof.
  intros C N Rg Pl L. destruct (triplets (map (project n c) ps)) as [|x l] eqn:E; [reflexivity|exfalso].
  assert (I : In x (triplets (map (project n c) ps))) by (rewrite E; left; reflexivity). apply triplets_in in I; [|rewrite map_length; lia].
  destruct I as (k & K & Nz & _). rewrite map_length in K. apply Nz. unfold cand.
  rewrite (nth_indep _ (0, 0) (project n c (0, 0, 0))) by (rewrite map_length; lia). rewrite (nth_indep (map _ _) (0, 0) (project n c (0, 0, 0)) (n:=1)) by (rewrite map_length; lia). rewrite (nth_indep (map _ _) (0, 0) (project n c (0, 0, 0)) (n:=k)) by (rewrite map_length; lia). rewrite !map_nth.
  rewrite orient2d_cross.
  assert (dsub : forall x y, dot3 n x = dot3 n y -> dot3 n (vsub x y) = 0) by (intros [[x1 x2] x3] [[y1 y2] y3]; destruct n as [[n1 n2] n3]; cbn; lra).
  destruct (project_cross n c (vsub (nth 0 ps (0, 0, 0)) (nth k ps (0, 0, 0))) (vsub (nth 1 ps (0, 0, 0)) (nth k ps (0, 0, 0))) C N) as (m & M & ->); [apply dsub, Pl; apply nth_In; lia..|].
  destruct (Req_EM_T m 0) as [->|Z]; [ring|]. apply M in Z. contradiction.
Qed.

Lemma three_vertices_defined n c (ps : list vec3) p0 p1 : (c <= 2)%nat -> regular n c -> planar n ps -> (3 < length ps)%nat ->
  nth_error ps 0 = Some p0 -> nth_error ps 1 = Some p1 -> (exists p, In p ps /\ ~ on_a_line p0 p1 p) ->
  (exists a b d, three_vertices n c ps (Some (a, b, d))) /\ ~ three_vertices n c ps None.
Proof.
  intros C Rg Pl L E0 E1 (p & P & NL).
  apply In_nth_error in P. destruct P as (k & Ek).
  assert (Kl : (k < length ps)%nat) by (apply nth_error_Some; congruence).
  assert (K0 : k <> 0%nat) by (intros ->; apply NL; right; exists 0; rewrite at3_0; congruence).
  assert (K1 : k <> 1%nat) by (intros ->; apply NL; right; exists 1; rewrite at3_1; congruence).
  assert (I : In (0%nat, 1%nat, k, cand (map (project n c) ps) k) (triplets (map (project n c) ps))).
  { apply triplets_in; [rewrite map_length; lia|]. exists k. split; [rewrite map_length; lia|]. split; [|reflexivity]. unfold cand.
    rewrite (nth_indep _ (0, 0) (project n c (0, 0, 0))) by (rewrite map_length; lia). rewrite (nth_indep (map _ _) (0, 0) (project n c (0, 0, 0)) (n:=1)) by (rewrite map_length; lia). rewrite (nth_indep (map _ _) (0, 0) (project n c (0, 0, 0)) (n:=k)) by (rewrite map_length; lia). rewrite !map_nth.
    rewrite (nth_error_nth _ _ _ E0), (nth_error_nth _ _ _ E1), (nth_error_nth _ _ _ Ek). rewrite regular_orient; auto; apply Pl; eapply nth_error_In; eassumption. }
  split.
  - destruct (best_exists (triplets (map (project n c) ps))) as ([[[i j] m]|] & B).
    + inversion B as [|i' j' m' o I' M]; subst. pose proof I' as Q. apply triplets_in in Q; [|rewrite map_length; lia]. destruct Q as (m' & Mr & _ & Q). injection Q as -> -> -> ->. rewrite map_length in Mr.
      destruct (nth_error ps m') as [pm|] eqn:Em; [|apply nth_error_None in Em; lia]. exists p0, p1, pm. eapply tv_long; eauto.
    + inversion B as [Z|]; subst. rewrite Z in I. destruct I.
  - intros H. inversion H as [| |_ B]; subst. inversion B as [Z|]; subst. rewrite Z in I. destruct I.
Qed.

(** ** the plane coefficients *)
Lemma largest_ok n : (largest_component n <= 2)%nat /\ forall i, (i <= 2)%nat -> Rabs (comp n i) <= Rabs (comp n (largest_component n)).
Proof.
  destruct n as [[x y] z]. unfold largest_component. cbn [fold_left comp fst snd].
  pose proof (Rabs_pos x). pose proof (Rabs_pos y). pose proof (Rabs_pos z).
  assert (i3 : forall P : nat -> Prop, P 0%nat -> P 1%nat -> P 2%nat -> forall i, (i <= 2)%nat -> P i) by (intros P P0 P1 P2 i I; destruct i as [|[|[|i]]]; [auto..|lia]).
  destruct (ltb_spec 0 (Rabs x)) as [[-> Hx]|[-> Hx]]; cbn [fst snd].
  - destruct (ltb_spec (Rabs x) (Rabs y)) as [[-> Hy]|[-> Hy]]; cbn [fst snd].
    + destruct (ltb_spec (Rabs y) (Rabs z)) as [[-> Hz]|[-> Hz]]; cbn [fst snd]; (split; [lia|]); apply i3; cbn [comp]; lra.
    + destruct (ltb_spec (Rabs x) (Rabs z)) as [[-> Hz]|[-> Hz]]; cbn [fst snd]; (split; [lia|]); apply i3; cbn [comp]; lra.
  - destruct (ltb_spec 0 (Rabs y)) as [[-> Hy]|[-> Hy]]; cbn [fst snd].
    + destruct (ltb_spec (Rabs y) (Rabs z)) as [[-> Hz]|[-> Hz]]; cbn [fst snd]; (split; [lia|]); apply i3; cbn [comp]; lra.
    + destruct (ltb_spec 0 (Rabs z)) as [[-> Hz]|[-> Hz]]; cbn [fst snd]; (split; [lia|]); apply i3; cbn [comp]; lra.
Qed.

Lemma largest_nonzero n : n <> (0, 0, 0) -> comp n (largest_component n) <> 0.
Proof.
  intros N Z. destruct (largest_ok n) as [C M]. rewrite Z, Rabs_R0 in M.
  assert (K : forall i, (i <= 2)%nat -> comp n i = 0).
  { intros i I. pose proof (M i I). pose proof (Rabs_pos (comp n i)). destruct (Req_EM_T (comp n i) 0) as [|Q]; [assumption|]. apply Rabs_pos_lt in Q. lra. }
  apply (vec3_neq n (0, 0, 0)) in N. pose proof (K 0%nat). pose proof (K 1%nat). pose proof (K 2%nat). cbn in N. destruct N as [N|[N|N]]; apply N; auto.
Qed.

(** vectors orthogonal to [m] have a cross product along [m] *)
Lemma cross_along m u v : m <> (0, 0, 0) -> dot3 m u = 0 -> dot3 m v = 0 -> exists k, cross_product u v = (let '(x, y, z) := m in (k * x, k * y, k * z)).
Proof.
  intros N U V. apply (vec3_neq m (0, 0, 0)) in N. destruct m as [[m1 m2] m3], u as [[u1 u2] u3], v as [[v1 v2] v3]. cbn in *.
  assert (K : m2 * (u1 * v2 - u2 * v1) = m3 * (u3 * v1 - u1 * v3)). { replace (m2 * _) with (u1 * (m2 * v2) - (m2 * u2) * v1) by ring. replace (m2 * v2) with (- m1 * v1 - m3 * v3) by lra. replace (m2 * u2) with (- m1 * u1 - m3 * u3) by lra. ring. }
  assert (K' : m3 * (u2 * v3 - u3 * v2) = m1 * (u1 * v2 - u2 * v1)). { replace (m3 * _) with (u2 * (m3 * v3) - (m3 * u3) * v2) by ring. replace (m3 * v3) with (- m1 * v1 - m2 * v2) by lra. replace (m3 * u3) with (- m1 * u1 - m2 * u2) by lra. ring. }
  assert (K'' : m1 * (u3 * v1 - u1 * v3) = m2 * (u2 * v3 - u3 * v2)). { replace (m1 * _) with (u3 * (m1 * v1) - (m1 * u1) * v3) by ring. replace (m1 * v1) with (- m2 * v2 - m3 * v3) by lra. replace (m1 * u1) with (- m2 * u2 - m3 * u3) by lra. ring. }
  destruct N as [N|[N|N]].
  - exists ((u2 * v3 - u3 * v2) / m1). f_equal; [f_equal|]; apply Rmult_eq_reg_l with m1; try exact N; field_simplify; try exact N; lra.
  - exists ((u3 * v1 - u1 * v3) / m2). f_equal; [f_equal|]; apply Rmult_eq_reg_l with m2; try exact N; field_simplify; try exact N; lra.
  - exists ((u1 * v2 - u2 * v1) / m3). f_equal; [f_equal|]; apply Rmult_eq_reg_l with m3; try exact N; field_simplify; try exact N; lra.
Qed.

Definition scaled (k : R) (m : vec3) : vec3 := let '(x, y, z) := m in (k * x, k * y, k * z).
Lemma normal_loop_along m p0 ps : m <> (0, 0, 0) -> (forall p, In p ps -> dot3 m p = dot3 m p0) ->
  forall k, exists k', normal_loop p0 ps (scaled k m) = scaled k' m.
Proof.
  intros N. induction ps as [|a ps IH]; intros Pl k; [exists k; reflexivity|]. destruct ps as [|b ps'].
  - exists k. reflexivity.
  - change (normal_loop p0 (a :: b :: ps') (scaled k m)) with (normal_loop p0 (b :: ps') (vadd (scaled k m) (cross_product (vsub a p0) (vsub b p0)))).
    destruct (cross_along m (vsub a p0) (vsub b p0) N) as (l & E).
    + specialize (Pl a (or_introl eq_refl)). destruct m as [[m1 m2] m3], a as [[a1 a2] a3], p0 as [[x y] z]. cbn in *. lra.
    + specialize (Pl b (or_intror (or_introl eq_refl))). destruct m as [[m1 m2] m3], b as [[a1 a2] a3], p0 as [[x y] z]. cbn in *. lra.
    + replace (vadd (scaled k m) (cross_product (vsub a p0) (vsub b p0))) with (scaled (k + l) m) by (rewrite E; destruct m as [[m1 m2] m3]; cbn; f_equal; [f_equal|]; ring).
      apply IH. intros p P. apply Pl. right. exact P.
Qed.
