(** From the geometry of rays and triangles to the angles. *)
From Coq Require Import List ZArith Reals Lra Psatz Bool.
From Verif Require Import Vec GeoModel WindModel WindAngle WindCocycle WindSpec.
Import ListNotations.
Open Scope R_scope.

Definition vscale (k : R) (a : vec3) : vec3 := let '(x, y, z) := a in (k * x, k * y, k * z).
Definition zero3 : vec3 := (0, 0, 0).

(** no cone combination of three vectors vanishes *)
Definition pointed (a b c : vec3) : Prop :=
  forall u v w, 0 <= u -> 0 <= v -> 0 <= w -> 0 < u + v + w -> mix u a v b w c <> zero3.

Lemma vec_eq (x y z x' y' z' : R) : x = x' -> y = y' -> z = z' -> (x, y, z) = (x', y', z').
Proof. intros -> -> ->. reflexivity. Qed.
Lemma vec_inv (x y z x' y' z' : R) : (x, y, z) = (x', y', z') -> x = x' /\ y = y' /\ z = z'.
Proof. intros E. injection E. auto. Qed.

Lemma squares3 x y z : 0 + x * x + y * y + z * z = 0 -> x = 0 /\ y = 0 /\ z = 0.
Proof.
  intros E. pose proof (Rle_0_sqr x). pose proof (Rle_0_sqr y). pose proof (Rle_0_sqr z). unfold Rsqr in *.
  assert (x * x = 0) by lra. assert (y * y = 0) by lra. assert (z * z = 0) by lra.
  apply Rmult_integral in H2, H3, H4. lra.
Qed.

Lemma pointed_cycle a b c : pointed a b c -> pointed b c a.
Proof.
  intros H u v w Hu Hv Hw S E. apply (H w u v); try lra.
  rewrite <- E. destruct a as [[a1 a2] a3], b as [[b1 b2] b3], c as [[c1 c2] c3]. unfold mix. apply vec_eq; ring.
Qed.

Lemma unit_dot a b : unit a -> unit b -> -1 <= dot_product a b.
Proof.
  destruct a as [[a1 a2] a3], b as [[b1 b2] b3]. unfold unit, dot_product. intros A B.
  pose proof (Rle_0_sqr (a1 + b1)). pose proof (Rle_0_sqr (a2 + b2)). pose proof (Rle_0_sqr (a3 + b3)). unfold Rsqr in *. nra.
Qed.
Lemma unit_antipode a b : unit a -> unit b -> dot_product a b = -1 -> mix 1 a 1 b 0 a = zero3.
Proof.
  destruct a as [[a1 a2] a3], b as [[b1 b2] b3]. unfold unit, dot_product, mix, zero3. intros A B E.
  pose proof (Rle_0_sqr (a1 + b1)). pose proof (Rle_0_sqr (a2 + b2)). pose proof (Rle_0_sqr (a3 + b3)). unfold Rsqr in *.
  assert ((a1 + b1) * (a1 + b1) = 0) by nra. assert ((a2 + b2) * (a2 + b2) = 0) by nra. assert ((a3 + b3) * (a3 + b3) = 0) by nra.
  apply Rmult_integral in H2, H3, H4. apply vec_eq; lra.
Qed.
Lemma unit_dot_pos a b c : unit a -> unit b -> pointed a b c -> 0 < 1 + dot_product a b.
Proof.
  intros A B P. pose proof (unit_dot a b A B). destruct (Req_dec (dot_product a b) (-1)) as [E|N]; [|lra].
  exfalso. apply (P 1 1 0); try lra. rewrite <- (unit_antipode a b A B E).
  destruct a as [[a1 a2] a3], b as [[b1 b2] b3], c as [[c1 c2] c3]. unfold mix. apply vec_eq; ring.
Qed.

(** b between a and c *)
Lemma between_clear a b c p r : unit a -> unit b -> unit c -> pointed a b c -> 0 <= p -> 0 <= r -> b = mix p a r c 0 a -> 0 < zre a b c.
Proof.
  intros A B C P Hp Hr E. apply pointed_cycle, pointed_cycle in P. pose proof (unit_dot_pos c a b C A P) as Q.
  assert (zre a b c = (1 + dot_product c a) * (1 + p + r)).
  { unfold zre. unfold unit in A, C. clear B P Q. subst b.
    transitivity (1 + (p * dot_product a a + r * dot_product c a) + (p * dot_product c a + r * dot_product c c) + dot_product c a).
    - destruct a as [[a1 a2] a3], c as [[c1 c2] c3]. unfold mix, dot_product. ring.
    - rewrite A, C. ring. }
  rewrite H. apply Rmult_lt_0_compat; lra.
Qed.

(** a linear relation of pointed units *)
Lemma relation_clear a b c x y z : unit a -> unit b -> unit c -> pointed a b c ->
  ~ (x = 0 /\ y = 0 /\ z = 0) -> mix x a y b z c = zero3 -> 0 < zre a b c.
Proof.
  intros A B C P N E.
  assert (Neg : mix (- x) a (- y) b (- z) c = zero3).
  { revert E. clear. destruct a as [[a1 a2] a3], b as [[b1 b2] b3], c as [[c1 c2] c3]. unfold mix, zero3. intros E. apply vec_inv in E. apply vec_eq; lra. }
  assert (G : forall a b c x y z, unit a -> unit b -> unit c -> pointed a b c -> mix x a y b z c = zero3 -> y < 0 -> 0 <= x -> 0 <= z -> 0 < zre a b c).
  { clear. intros a b c x y z A B C P E Y X Z. apply (between_clear a b c (x / - y) (z / - y) A B C P).
    - unfold Rdiv. apply Rmult_le_pos; [exact X|]. apply Rlt_le, Rinv_0_lt_compat. lra.
    - unfold Rdiv. apply Rmult_le_pos; [exact Z|]. apply Rlt_le, Rinv_0_lt_compat. lra.
    - clear A B C P. destruct a as [[a1 a2] a3], b as [[b1 b2] b3], c as [[c1 c2] c3]. unfold mix, zero3 in *. apply vec_inv in E. destruct E as (E1 & E2 & E3).
      apply vec_eq; apply (Rmult_eq_reg_l (- y)); try lra; field_simplify; lra. }
  assert (G2 : forall x y z, mix x a y b z c = zero3 -> ~ (x = 0 /\ y = 0 /\ z = 0) -> 0 <= x -> 0 < zre a b c).
  { clear x y z N E Neg. intros x y z E N X.
    destruct (Rlt_le_dec y 0) as [Y|Y], (Rlt_le_dec z 0) as [Z|Z].
    - (* x >= 0 > y, z: negate *)
      destruct (Req_dec x 0) as [X0|X0].
      + exfalso. apply (P (-x) (-y) (-z)); try lra.
        revert E. clear. destruct a as [[a1 a2] a3], b as [[b1 b2] b3], c as [[c1 c2] c3]. unfold mix, zero3. intros E. apply vec_inv in E. apply vec_eq; lra.
      + rewrite <- (zre_cycle a b c), <- (zre_cycle b c a). apply (G c a b (- z) (- x) (- y)); try lra; try assumption; [apply pointed_cycle, pointed_cycle; exact P|].
        revert E. clear. destruct a as [[a1 a2] a3], b as [[b1 b2] b3], c as [[c1 c2] c3]. unfold mix, zero3. intros E. apply vec_inv in E. apply vec_eq; lra.
    - apply (G a b c x y z); assumption.
    - rewrite <- (zre_cycle a b c). apply (G b c a y z x); try assumption; [apply pointed_cycle; exact P|].
      rewrite <- E. clear. destruct a as [[a1 a2] a3], b as [[b1 b2] b3], c as [[c1 c2] c3]. unfold mix. apply vec_eq; ring.
    - exfalso. apply (P x y z); try assumption. destruct (Rtotal_order 0 (x + y + z)) as [H | [H | H]]; [exact H| |]; [exfalso; apply N|]; lra. }
  destruct (Rle_lt_dec 0 x) as [X|X]; [apply (G2 x y z); assumption|]. apply (G2 (- x) (- y) (- z)); [exact Neg| |lra]. intros (H1 & H2 & H3). apply N. lra.
Qed.

Lemma pointed_clear a b c : unit a -> unit b -> unit c -> pointed a b c -> clear a b c.
Proof.
  intros A B C P. destruct (Req_dec (det3 a b c) 0) as [D|D]; [right|left; exact D].
  assert (R : forall a b c, det3 a b c = 0 -> let N := cross_product a b in
     mix (dot_product (cross_product b c) N) a (dot_product (cross_product c a) N) b (dot_product N N) c = zero3).
  { clear. intros a b c D. cbv zeta. destruct a as [[a1 a2] a3], b as [[b1 b2] b3], c as [[c1 c2] c3]. unfold det3, dot_product, cross_product, mix, zero3 in *.
    set (d := 0 + a1 * (b2 * c3 - b3 * c2) + a2 * (b3 * c1 - b1 * c3) + a3 * (b1 * c2 - b2 * c1)) in *.
    apply vec_eq.
    - transitivity (d * (a2 * b3 - a3 * b2)); [unfold d; ring|rewrite D; ring].
    - transitivity (d * (a3 * b1 - a1 * b3)); [unfold d; ring|rewrite D; ring].
    - transitivity (d * (a1 * b2 - a2 * b1)); [unfold d; ring|rewrite D; ring]. }
  destruct (Req_dec (dot_product (cross_product a b) (cross_product a b)) 0) as [Z|Z].
  - (* a and b are parallel *)
    assert (E : mix 1 a (- dot_product a b) b 0 c = zero3).
    { revert Z A B. clear. destruct a as [[a1 a2] a3], b as [[b1 b2] b3], c as [[c1 c2] c3]. unfold unit, dot_product, cross_product, mix, zero3. intros Z A B.
      apply squares3 in Z. destruct Z as (H & H0 & H1).
      apply vec_eq.
      - transitivity (a1 * (1 - (0 + b1 * b1 + b2 * b2 + b3 * b3)) + b2 * (a1 * b2 - a2 * b1) - b3 * (a3 * b1 - a1 * b3)); [ring|rewrite B, H0, H1; ring].
      - transitivity (a2 * (1 - (0 + b1 * b1 + b2 * b2 + b3 * b3)) + b3 * (a2 * b3 - a3 * b2) - b1 * (a1 * b2 - a2 * b1)); [ring|rewrite B, H, H1; ring].
      - transitivity (a3 * (1 - (0 + b1 * b1 + b2 * b2 + b3 * b3)) + b1 * (a3 * b1 - a1 * b3) - b2 * (a2 * b3 - a3 * b2)); [ring|rewrite B, H, H0; ring]. }
    apply (relation_clear a b c 1 (- dot_product a b) 0); try assumption. lra.
  - apply (relation_clear a b c _ _ _ A B C P) with (2 := R a b c D). intros (_ & _ & H). contradiction.
Qed.

(** ** Coplanar vectors *)
Lemma pointed_nonzero a b c : pointed a b c -> 0 < dot_product a a.
Proof.
  intros P. assert (N : a <> zero3).
  { intros ->. apply (P 1 0 0); try lra. destruct b as [[b1 b2] b3], c as [[c1 c2] c3]. unfold mix, zero3. apply vec_eq; ring. }
  destruct a as [[a1 a2] a3]. unfold dot_product, zero3 in *. pose proof (Rle_0_sqr a1). pose proof (Rle_0_sqr a2). pose proof (Rle_0_sqr a3). unfold Rsqr in *.
  destruct (Req_dec (0 + a1 * a1 + a2 * a2 + a3 * a3) 0) as [E|E]; [|lra]. apply squares3 in E. destruct E as (-> & -> & ->). exfalso. apply N. reflexivity.
Qed.

Lemma relation a b c : pointed a b c -> det3 a b c = 0 -> exists x y z, ~ (x = 0 /\ y = 0 /\ z = 0) /\ mix x a y b z c = zero3.
Proof.
  intros P D. destruct (Req_dec (dot_product (cross_product a b) (cross_product a b)) 0) as [Z|Z].
  - exists (dot_product a b), (- dot_product a a), 0. split.
    + pose proof (pointed_nonzero a b c P). lra.
    + revert Z. clear. destruct a as [[a1 a2] a3], b as [[b1 b2] b3], c as [[c1 c2] c3]. unfold dot_product, cross_product, mix, zero3. intros Z.
      apply squares3 in Z. destruct Z as (H & H0 & H1). apply vec_eq.
      * transitivity (a3 * (a3 * b1 - a1 * b3) - a2 * (a1 * b2 - a2 * b1) - 2 * a3 * (a3 * b1 - a1 * b3) + 2 * a2 * (a1 * b2 - a2 * b1)); [ring|rewrite H0, H1; ring].
      * transitivity (a1 * (a1 * b2 - a2 * b1) - a3 * (a2 * b3 - a3 * b2) - 2 * a1 * (a1 * b2 - a2 * b1) + 2 * a3 * (a2 * b3 - a3 * b2)); [ring|rewrite H, H1; ring].
      * transitivity (a2 * (a2 * b3 - a3 * b2) - a1 * (a3 * b1 - a1 * b3) - 2 * a2 * (a2 * b3 - a3 * b2) + 2 * a1 * (a3 * b1 - a1 * b3)); [ring|rewrite H, H0; ring].
  - exists (dot_product (cross_product b c) (cross_product a b)), (dot_product (cross_product c a) (cross_product a b)), (dot_product (cross_product a b) (cross_product a b)).
    split; [intros (_ & _ & H); contradiction|]. clear Z P.
    destruct a as [[a1 a2] a3], b as [[b1 b2] b3], c as [[c1 c2] c3]. unfold det3, dot_product, cross_product, mix, zero3 in *.
    set (d := 0 + a1 * (b2 * c3 - b3 * c2) + a2 * (b3 * c1 - b1 * c3) + a3 * (b1 * c2 - b2 * c1)) in *.
    apply vec_eq.
    + transitivity (d * (a2 * b3 - a3 * b2)); [unfold d; ring|rewrite D; ring].
    + transitivity (d * (a3 * b1 - a1 * b3)); [unfold d; ring|rewrite D; ring].
    + transitivity (d * (a1 * b2 - a2 * b1)); [unfold d; ring|rewrite D; ring].
Qed.

Definition in_cone (e a b : vec3) : Prop := exists s r, 0 <= s /\ 0 <= r /\ 0 < s + r /\ e = mix s a r b 0 a.

(** a relation whose first coefficient is the most negative, relative to the combination *)
Lemma exit_edge a b c u v w x y z : pointed a b c -> 0 < u -> 0 < v -> 0 < w -> mix x a y b z c = zero3 ->
  x < 0 -> x / u <= y / v -> x / u <= z / w -> in_cone (mix u a v b w c) b c.
Proof.
  intros P U V W E X Y Z. exists (v + u / - x * y), (w + u / - x * z).
  assert (L : 0 < u / - x) by (apply Rdiv_lt_0_compat; lra).
  assert (B1 : 0 <= v + u / - x * y).
  { replace (v + u / - x * y) with (v * (u / - x) * (y / v - x / u)) by (field; lra).
    apply Rmult_le_pos; [apply Rmult_le_pos; lra|lra]. }
  assert (B2 : 0 <= w + u / - x * z).
  { replace (w + u / - x * z) with (w * (u / - x) * (z / w - x / u)) by (field; lra).
    apply Rmult_le_pos; [apply Rmult_le_pos; lra|lra]. }
  assert (Q : mix u a v b w c = mix (v + u / - x * y) b (w + u / - x * z) c 0 b).
  { clear P B1 B2. destruct a as [[a1 a2] a3], b as [[b1 b2] b3], c as [[c1 c2] c3]. unfold mix, zero3 in *. apply vec_inv in E. destruct E as (E1 & E2 & E3). apply vec_eq.
    - transitivity (u * a1 + v * b1 + w * c1 + u / - x * (x * a1 + y * b1 + z * c1)); [rewrite E1; ring|field; lra].
    - transitivity (u * a2 + v * b2 + w * c2 + u / - x * (x * a2 + y * b2 + z * c2)); [rewrite E2; ring|field; lra].
    - transitivity (u * a3 + v * b3 + w * c3 + u / - x * (x * a3 + y * b3 + z * c3)); [rewrite E3; ring|field; lra]. }
  split; [exact B1|]. split; [exact B2|]. split; [|exact Q].
  destruct (Req_dec (v + u / - x * y + (w + u / - x * z)) 0) as [N|N]; [|lra]. exfalso.
  assert (H1 : v + u / - x * y = 0) by lra. assert (H2 : w + u / - x * z = 0) by lra.
  apply (P u v w); try lra. rewrite Q, H1, H2. clear. destruct b as [[b1 b2] b3], c as [[c1 c2] c3]. unfold mix, zero3. apply vec_eq; ring.
Qed.

Lemma mix_cycle a b c u v w : mix v b w c u a = mix u a v b w c.
Proof. destruct a as [[a1 a2] a3], b as [[b1 b2] b3], c as [[c1 c2] c3]. unfold mix. apply vec_eq; ring. Qed.

Lemma planar_exit a b c u v w : pointed a b c -> det3 a b c = 0 -> 0 < u -> 0 < v -> 0 < w ->
  in_cone (mix u a v b w c) b c \/ in_cone (mix u a v b w c) c a \/ in_cone (mix u a v b w c) a b.
Proof.
  intros P D U V W. destruct (relation a b c P D) as (x0 & y0 & z0 & N0 & E0).
  assert (S : exists x y z, mix x a y b z c = zero3 /\ (x < 0 \/ y < 0 \/ z < 0)).
  { destruct (Rlt_le_dec x0 0) as [X|X]; [exists x0, y0, z0; auto|]. destruct (Rlt_le_dec y0 0) as [Y|Y]; [exists x0, y0, z0; auto|].
    destruct (Rlt_le_dec z0 0) as [Z|Z]; [exists x0, y0, z0; auto|]. exfalso. apply (P x0 y0 z0); try assumption.
    destruct (Rtotal_order 0 (x0 + y0 + z0)) as [H | [H | H]]; [exact H| |]; [exfalso; apply N0|]; lra. }
  destruct S as (x & y & z & E & S). clear x0 y0 z0 N0 E0.
  assert (NX : x / u < 0 -> x < 0) by (intros H; apply (Rmult_lt_reg_r (/ u)); [apply Rinv_0_lt_compat; exact U|]; unfold Rdiv in H; lra).
  assert (NY : y / v < 0 -> y < 0) by (intros H; apply (Rmult_lt_reg_r (/ v)); [apply Rinv_0_lt_compat; exact V|]; unfold Rdiv in H; lra).
  assert (NZ : z / w < 0 -> z < 0) by (intros H; apply (Rmult_lt_reg_r (/ w)); [apply Rinv_0_lt_compat; exact W|]; unfold Rdiv in H; lra).
  assert (M : x / u < 0 \/ y / v < 0 \/ z / w < 0).
  { destruct S as [S | [S | S]]; [left|right; left|right; right].
    - assert (0 < - x / u) by (apply Rdiv_lt_0_compat; lra). unfold Rdiv in *. lra.
    - assert (0 < - y / v) by (apply Rdiv_lt_0_compat; lra). unfold Rdiv in *. lra.
    - assert (0 < - z / w) by (apply Rdiv_lt_0_compat; lra). unfold Rdiv in *. lra. }
  destruct (Rle_lt_dec (x / u) (y / v)) as [A1|A1], (Rle_lt_dec (x / u) (z / w)) as [A2|A2], (Rle_lt_dec (y / v) (z / w)) as [A3|A3].
  all: try (left; apply (exit_edge a b c u v w x y z); try assumption; [apply NX|..]; clear NX NY NZ; lra).
  all: try (right; left; rewrite <- mix_cycle; apply (exit_edge b c a v w u y z x); try assumption;
            [apply pointed_cycle; exact P|rewrite mix_cycle; exact E|apply NY|..]; clear NX NY NZ; lra).
  all: right; right; rewrite <- mix_cycle, <- mix_cycle; apply (exit_edge c a b w u v z x y); try assumption;
            [apply pointed_cycle, pointed_cycle; exact P|rewrite <- E, <- (mix_cycle a b c), <- (mix_cycle b c a); reflexivity|apply NZ|..]; clear NX NY NZ; lra.
Qed.

(** ** Directions *)
Definition dir (q v : vec3) : vec3 := vdiv (vsub v q) (vlen (vsub v q)).
Lemma dot_nonneg v : 0 <= dot_product v v.
Proof. destruct v as [[x y] z]. unfold dot_product. pose proof (Rle_0_sqr x). pose proof (Rle_0_sqr y). pose proof (Rle_0_sqr z). unfold Rsqr in *. lra. Qed.
Lemma vlen_pos v : v <> zero3 -> 0 < vlen v.
Proof.
  intros N. unfold vlen. apply sqrt_lt_R0. pose proof (dot_nonneg v). destruct (Req_dec (dot_product v v) 0) as [E|E]; [|lra].
  destruct v as [[x y] z]. unfold dot_product in E. apply squares3 in E. destruct E as (-> & -> & ->). exfalso. apply N. reflexivity.
Qed.
Lemma vlen_zero : vlen zero3 = 0.
Proof. unfold vlen, zero3, dot_product. replace (0 + 0 * 0 + 0 * 0 + 0 * 0) with 0 by ring. apply sqrt_0. Qed.
Lemma vlen_nonzero v : vlen v <> 0 <-> v <> zero3.
Proof. split; [intros H ->; apply H, vlen_zero|]. intros H. pose proof (vlen_pos v H). lra. Qed.
Lemma vdiv_scale v k : k <> 0 -> vdiv v k = vscale (/ k) v.
Proof. intros. destruct v as [[x y] z]. unfold vdiv, vscale. apply vec_eq; field; assumption. Qed.
Lemma unit_scale v : v <> zero3 -> unit (vscale (/ vlen v) v).
Proof.
  intros N. pose proof (vlen_pos v N) as L. unfold unit. assert (E : vlen v * vlen v = dot_product v v) by (unfold vlen; apply sqrt_sqrt, dot_nonneg).
  transitivity (/ vlen v * / vlen v * dot_product v v); [destruct v as [[x y] z]; unfold vscale, dot_product; ring|]. rewrite <- E. field. lra.
Qed.
Lemma unit_neg v : unit v -> unit (vscale (-1) v).
Proof. unfold unit. intros <-. destruct v as [[x y] z]; unfold vscale, dot_product; ring. Qed.
Lemma vscale_scale k l v : vscale k (vscale l v) = vscale (k * l) v.
Proof. destruct v as [[x y] z]. unfold vscale. apply vec_eq; ring. Qed.
Lemma det3_scale k l m a b c : det3 (vscale k a) (vscale l b) (vscale m c) = k * l * m * det3 a b c.
Proof. destruct a as [[a1 a2] a3], b as [[b1 b2] b3], c as [[c1 c2] c3]. unfold det3, vscale, dot_product, cross_product. ring. Qed.
Lemma mix_scale k l m a b c u v w : mix u (vscale k a) v (vscale l b) w (vscale m c) = mix (u * k) a (v * l) b (w * m) c.
Proof. destruct a as [[a1 a2] a3], b as [[b1 b2] b3], c as [[c1 c2] c3]. unfold mix, vscale. apply vec_eq; ring. Qed.
Lemma pointed_scale k l m a b c : 0 < k -> 0 < l -> 0 < m -> pointed a b c -> pointed (vscale k a) (vscale l b) (vscale m c).
Proof.
  intros K L M P u v w U V W S. rewrite mix_scale. pose proof (Rmult_le_pos u k U ltac:(lra)). pose proof (Rmult_le_pos v l V ltac:(lra)). pose proof (Rmult_le_pos w m W ltac:(lra)).
  apply P; try assumption. destruct (Rlt_le_dec 0 u) as [H2|H2]; [pose proof (Rmult_lt_0_compat u k H2 K); lra|].
  destruct (Rlt_le_dec 0 v) as [H3|H3]; [pose proof (Rmult_lt_0_compat v l H3 L); lra|]. assert (H4 : 0 < w) by lra. pose proof (Rmult_lt_0_compat w m H4 M). lra.
Qed.

(** the query point is not on the triangle *)
Lemma off_pointed q a b c : ~ in_triangle q (a, b, c) -> pointed (vsub a q) (vsub b q) (vsub c q).
Proof.
  intros N u v w U V W S E. apply N. exists (u / (u + v + w)), (v / (u + v + w)), (w / (u + v + w)).
  assert (I : 0 < / (u + v + w)) by (apply Rinv_0_lt_compat; exact S).
  split; [unfold Rdiv; apply Rmult_le_pos; lra|]. split; [unfold Rdiv; apply Rmult_le_pos; lra|]. split; [unfold Rdiv; apply Rmult_le_pos; lra|].
  split; [field; lra|].
  destruct q as [[q1 q2] q3], a as [[a1 a2] a3], b as [[b1 b2] b3], c as [[c1 c2] c3]. unfold mix, vsub, zero3 in *. apply vec_inv in E. destruct E as (E1 & E2 & E3).
  apply vec_eq; apply (Rmult_eq_reg_l (u + v + w)); try lra; field_simplify; try lra.
Qed.

(** the ray misses the edge *)
Lemma miss_pointed q d a b : d <> zero3 -> (forall t, 0 <= t -> ~ on_edge (ray_at q d t) a b) -> pointed (vscale (-1) d) (vsub a q) (vsub b q).
Proof.
  intros D N u v w U V W S E. destruct (Req_dec (v + w) 0) as [Z|Z].
  - assert (v = 0) by lra. assert (w = 0) by lra. subst v w. apply D. clear N D. destruct q as [[q1 q2] q3], a as [[a1 a2] a3], b as [[b1 b2] b3], d as [[d1 d2] d3].
    unfold mix, vscale, vsub, zero3 in *. apply vec_inv in E. destruct E as (E1 & E2 & E3). apply vec_eq; apply (Rmult_eq_reg_l u); lra.
  - assert (I : 0 < / (v + w)) by (apply Rinv_0_lt_compat; lra).
    apply (N (u / (v + w))); [unfold Rdiv; apply Rmult_le_pos; lra|].
    exists (v / (v + w)), (w / (v + w)), 0. split; [unfold Rdiv; apply Rmult_le_pos; lra|]. split; [unfold Rdiv; apply Rmult_le_pos; lra|]. split; [lra|].
    split; [field; lra|]. clear N D. destruct q as [[q1 q2] q3], a as [[a1 a2] a3], b as [[b1 b2] b3], d as [[d1 d2] d3].
    unfold ray_at, mix, vscale, vsub, zero3 in *. apply vec_inv in E. destruct E as (E1 & E2 & E3).
    apply vec_eq; apply (Rmult_eq_reg_l (v + w)); try lra; field_simplify; try lra.
Qed.

Lemma on_edge_swap p a b : on_edge p a b -> on_edge p b a.
Proof.
  intros (u & v & w & U & V & W & S & E). exists (v + w), u, 0. split; [lra|]. split; [exact U|]. split; [lra|]. split; [lra|]. rewrite E.
  destruct a as [[a1 a2] a3], b as [[b1 b2] b3]. unfold mix. apply vec_eq; ring.
Qed.

(** a cone combination of the ends of an edge is met by the ray *)
Lemma cone_edge q d a b t : 0 < t -> in_cone (vscale t d) (vsub a q) (vsub b q) -> exists t', 0 <= t' /\ on_edge (ray_at q d t') a b.
Proof.
  intros T (s & r & S & R & Q & E). exists (t / (s + r)). assert (I : 0 < / (s + r)) by (apply Rinv_0_lt_compat; lra).
  split; [unfold Rdiv; apply Rmult_le_pos; lra|]. exists (s / (s + r)), (r / (s + r)), 0.
  split; [unfold Rdiv; apply Rmult_le_pos; lra|]. split; [unfold Rdiv; apply Rmult_le_pos; lra|]. split; [lra|]. split; [field; lra|].
  destruct q as [[q1 q2] q3], a as [[a1 a2] a3], b as [[b1 b2] b3], d as [[d1 d2] d3].
  unfold ray_at, mix, vscale, vsub in *. apply vec_inv in E. destruct E as (E1 & E2 & E3).
  apply vec_eq; apply (Rmult_eq_reg_l (s + r)); try lra; field_simplify; try lra.
Qed.

Lemma side_ext a b c d a' b' c' d' :
  (a < 0 <-> a' < 0) -> (0 < a <-> 0 < a') -> (b < 0 <-> b' < 0) -> (0 < b <-> 0 < b') ->
  (c < 0 <-> c' < 0) -> (0 < c <-> 0 < c') -> (d < 0 <-> d' < 0) -> (0 < d <-> 0 < d') -> side a b c d = side a' b' c' d'.
Proof.
  intros. assert (E : forall x y x' y', (x < y <-> x' < y') -> ltb x y = ltb x' y').
  { clear. intros x y x' y' H. destruct (ltb_spec x y), (ltb_spec x' y'); tauto. }
  unfold side. rewrite (E a 0 a' 0), (E b 0 b' 0), (E c 0 c' 0), (E 0 d 0 d'), (E 0 a 0 a'), (E 0 b 0 b'), (E 0 c 0 c'), (E d 0 d' 0) by assumption. reflexivity.
Qed.

Lemma scale_sign k x y : 0 < k -> x = k * y -> (x < 0 <-> y < 0) /\ (0 < x <-> 0 < y).
Proof. intros K ->. split; split; intros; nra. Qed.

Lemma det3_scale1 t d b c : det3 (vscale t d) b c = t * det3 d b c.
Proof. destruct b as [[b1 b2] b3], c as [[c1 c2] c3], d as [[d1 d2] d3]. unfold det3, vscale, dot_product, cross_product. ring. Qed.
Lemma det3_mix u v w a b c : det3 (mix u a v b w c) b c = u * det3 a b c /\ det3 (mix u a v b w c) c a = v * det3 a b c /\ det3 (mix u a v b w c) a b = w * det3 a b c.
Proof. destruct a as [[a1 a2] a3], b as [[b1 b2] b3], c as [[c1 c2] c3]. unfold det3, mix, dot_product, cross_product. repeat split; ring. Qed.

(** Cramer's rule for the direction of the ray *)
Lemma crossing_side q d a b c :
  ~ in_triangle q (a, b, c) ->
  (forall t, 0 <= t -> ~ on_edge (ray_at q d t) a b) -> (forall t, 0 <= t -> ~ on_edge (ray_at q d t) b c) -> (forall t, 0 <= t -> ~ on_edge (ray_at q d t) c a) ->
  let a' := vsub a q in let b' := vsub b q in let c' := vsub c q in
  crosses q d (a, b, c) (side (- det3 d b' c') (- det3 d c' a') (- det3 d a' b') (det3 a' b' c')).
Proof.
  intros Off E1 E2 E3 a' b' c'.
  set (A := det3 d b' c'). set (B := det3 d c' a'). set (C := det3 d a' b'). set (D := det3 a' b' c').
  assert (Nor : dot_product d (normal (a, b, c)) = A + B + C).
  { unfold A, B, C, a', b', c', normal, det3. destruct q as [[q1 q2] q3], a as [[a1 a2] a3], b as [[b1 b2] b3], c as [[c1 c2] c3], d as [[d1 d2] d3].
    unfold dot_product, cross_product, vsub. ring. }
  assert (Hit : A + B + C <> 0 -> ray_at q d (D / (A + B + C)) = mix (A / (A + B + C)) a (B / (A + B + C)) b (C / (A + B + C)) c).
  { intros N. assert (X : vscale D d = mix A a' B b' C c').
    { unfold A, B, C, D, a', b', c'. destruct q as [[q1 q2] q3], a as [[a1 a2] a3], b as [[b1 b2] b3], c as [[c1 c2] c3], d as [[d1 d2] d3].
      unfold det3, mix, vscale, dot_product, cross_product, vsub. apply vec_eq; ring. }
    revert N X. unfold a', b', c'. generalize A, B, C, D. clear. intros A B C D N X.
    destruct q as [[q1 q2] q3], a as [[a1 a2] a3], b as [[b1 b2] b3], c as [[c1 c2] c3], d as [[d1 d2] d3].
    unfold ray_at, mix, vscale, vsub in *. apply vec_inv in X. destruct X as (X1 & X2 & X3).
    apply vec_eq; apply (Rmult_eq_reg_l (A + B + C)); try exact N; field_simplify; try exact N; lra. }
  assert (Miss : forall t, 0 <= t -> in_triangle (ray_at q d t) (a, b, c) -> (0 < A /\ 0 < B /\ 0 < C /\ 0 < D) \/ (A < 0 /\ B < 0 /\ C < 0 /\ D < 0)).
  { intros t Ht (u & v & w & U & V & W & S & E).
    assert (T : 0 < t).
    { destruct (Req_dec t 0) as [->|N]; [|lra]. exfalso. apply Off. exists u, v, w. repeat split; try assumption. rewrite <- E.
      destruct q as [[q1 q2] q3], d as [[d1 d2] d3]. unfold ray_at. apply vec_eq; ring. }
    assert (U' : 0 < u).
    { destruct (Req_dec u 0) as [->|N]; [|lra]. exfalso. apply (E2 t Ht). exists v, w, 0. repeat split; try lra. rewrite E.
      destruct a as [[a1 a2] a3], b as [[b1 b2] b3], c as [[c1 c2] c3]. unfold mix. apply vec_eq; ring. }
    assert (V' : 0 < v).
    { destruct (Req_dec v 0) as [->|N]; [|lra]. exfalso. apply (E3 t Ht). exists w, u, 0. repeat split; try lra. rewrite E.
      destruct a as [[a1 a2] a3], b as [[b1 b2] b3], c as [[c1 c2] c3]. unfold mix. apply vec_eq; ring. }
    assert (W' : 0 < w).
    { destruct (Req_dec w 0) as [->|N]; [|lra]. exfalso. apply (E1 t Ht). exists u, v, 0. repeat split; try lra. rewrite E.
      destruct a as [[a1 a2] a3], b as [[b1 b2] b3], c as [[c1 c2] c3]. unfold mix. apply vec_eq; ring. }
    assert (X : vscale t d = mix u a' v b' w c').
    { revert E S. unfold a', b', c'. clear. destruct q as [[q1 q2] q3], a as [[a1 a2] a3], b as [[b1 b2] b3], c as [[c1 c2] c3], d as [[d1 d2] d3].
      unfold ray_at, mix, vscale, vsub. intros E S. apply vec_inv in E. destruct E as (X1 & X2 & X3). assert (w = 1 - u - v) by lra. subst w.
      apply vec_eq; [transitivity (q1 + t * d1 - q1); [ring|rewrite X1; ring]|transitivity (q2 + t * d2 - q2); [ring|rewrite X2; ring]|transitivity (q3 + t * d3 - q3); [ring|rewrite X3; ring]]. }
    destruct (det3_mix u v w a' b' c') as (XA & XB & XC). rewrite <- X, det3_scale1 in XA, XB, XC. fold A D in XA. fold B D in XB. fold C D in XC.
    destruct (Rtotal_order D 0) as [DN | [DZ | DP]].
    - right. clear - T U' V' W' XA XB XC DN. repeat split; try exact DN; nra.
    - exfalso. destruct (planar_exit a' b' c' u v w (off_pointed q a b c Off) DZ U' V' W') as [Y | [Y | Y]]; rewrite <- X in Y;
        destruct (cone_edge q d _ _ t T Y) as (t' & T' & Q); [apply (E2 t' T' Q)|apply (E3 t' T' Q)|apply (E1 t' T' Q)].
    - left. clear - T U' V' W' XA XB XC DP. repeat split; try exact DP; nra. }
  unfold side.
  destruct (ltb_spec (- A) 0) as [A1|A1], (ltb_spec (- B) 0) as [B1|B1], (ltb_spec (- C) 0) as [C1|C1], (ltb_spec 0 D) as [D1|D1];
  destruct (ltb_spec 0 (- A)) as [A2|A2], (ltb_spec 0 (- B)) as [B2|B2], (ltb_spec 0 (- C)) as [C2|C2], (ltb_spec D 0) as [D2|D2]; cbn [andb]; try lra;
  try (apply cross_none; intros t Ht Y; destruct (Miss t Ht Y) as [(? & ? & ? & ?) | (? & ? & ? & ?)]; lra).
  - assert (P : 0 < A + B + C) by lra. apply (cross_out _ _ _ (D / (A + B + C))).
    + apply Rdiv_lt_0_compat; lra.
    + rewrite Hit by lra. exists (A / (A + B + C)), (B / (A + B + C)), (C / (A + B + C)). repeat split; try (apply Rdiv_lt_0_compat; lra). field. lra.
    + rewrite Nor. exact P.
  - assert (P : 0 < - (A + B + C)) by lra. apply (cross_in _ _ _ (D / (A + B + C))).
    + replace (D / (A + B + C)) with (- D / - (A + B + C)) by (field; lra). apply Rdiv_lt_0_compat; lra.
    + rewrite Hit by lra. exists (A / (A + B + C)), (B / (A + B + C)), (C / (A + B + C)). 
      replace (A / (A + B + C)) with (- A / - (A + B + C)) by (field; lra). replace (B / (A + B + C)) with (- B / - (A + B + C)) by (field; lra). replace (C / (A + B + C)) with (- C / - (A + B + C)) by (field; lra).
      repeat split; try (apply Rdiv_lt_0_compat; lra). field. lra.
    + rewrite Nor. lra.
Qed.

(** ** A triangle and a ray *)
Definition back (d : vec3) : vec3 := vscale (-1) (vscale (/ vlen d) d).

Lemma dir_scale q v : v <> q -> exists k, 0 < k /\ dir q v = vscale k (vsub v q) /\ unit (dir q v).
Proof.
  intros N. assert (M : vsub v q <> zero3).
  { intros E. apply N. destruct v as [[x y] z], q as [[q1 q2] q3]. unfold vsub, zero3 in E. apply vec_inv in E. apply vec_eq; lra. }
  pose proof (vlen_pos _ M) as L. exists (/ vlen (vsub v q)). split; [apply Rinv_0_lt_compat; exact L|].
  assert (E : dir q v = vscale (/ vlen (vsub v q)) (vsub v q)) by (unfold dir; apply vdiv_scale; lra).
  split; [exact E|]. rewrite E. apply unit_scale. exact M.
Qed.
Lemma corner_off q a b c : ~ in_triangle q (a, b, c) -> a <> q /\ b <> q /\ c <> q.
Proof.
  intros N. destruct a as [[a1 a2] a3], b as [[b1 b2] b3], c as [[c1 c2] c3]. split; [|split]; intros E; apply N; rewrite <- E.
  - exists 1, 0, 0. repeat split; try lra. unfold mix. apply vec_eq; ring.
  - exists 0, 1, 0. repeat split; try lra. unfold mix. apply vec_eq; ring.
  - exists 0, 0, 1. repeat split; try lra. unfold mix. apply vec_eq; ring.
Qed.

Lemma triangle_clear q a b c : ~ in_triangle q (a, b, c) -> clear (dir q a) (dir q b) (dir q c).
Proof.
  intros Off. destruct (corner_off q a b c Off) as (Na & Nb & Nc).
  destruct (dir_scale q a Na) as (k & K & Ea & Ua). destruct (dir_scale q b Nb) as (l & L & Eb & Ub). destruct (dir_scale q c Nc) as (m & M & Ec & Uc).
  apply pointed_clear; try assumption. rewrite Ea, Eb, Ec. apply pointed_scale; try assumption. apply off_pointed. exact Off.
Qed.

Lemma back_unit d : d <> zero3 -> unit (back d).
Proof. intros D. apply unit_neg, unit_scale, D. Qed.
Lemma edge_clear q d a b : a <> q -> b <> q -> d <> zero3 -> (forall t, 0 <= t -> ~ on_edge (ray_at q d t) a b) -> clear (back d) (dir q a) (dir q b).
Proof.
  intros Na Nb D E. destruct (dir_scale q a Na) as (k & K & Ea & Ua). destruct (dir_scale q b Nb) as (l & L & Eb & Ub).
  apply pointed_clear; try assumption; [apply back_unit; exact D|]. rewrite Ea, Eb.
  assert (X : back d = vscale (/ vlen d) (vscale (-1) d)) by (unfold back; rewrite !vscale_scale; f_equal; ring). rewrite X.
  apply pointed_scale; try assumption; [apply Rinv_0_lt_compat, vlen_pos; exact D|]. apply miss_pointed; assumption.
Qed.

Lemma triangle_ray q d a b c :
  ~ in_triangle q (a, b, c) -> d <> zero3 ->
  (forall t, 0 <= t -> ~ on_edge (ray_at q d t) a b) -> (forall t, 0 <= t -> ~ on_edge (ray_at q d t) b c) -> (forall t, 0 <= t -> ~ on_edge (ray_at q d t) c a) ->
  exists k, crosses q d (a, b, c) k /\
    arg (dir q a) (dir q b) (dir q c) =
      arg (back d) (dir q a) (dir q b) + arg (back d) (dir q b) (dir q c) + arg (back d) (dir q c) (dir q a) + IZR k * (2 * PI).
Proof.
  intros Off D E1 E2 E3. pose proof (crossing_side q d a b c Off E1 E2 E3) as S. cbv zeta in S.
  destruct (corner_off q a b c Off) as (Na & Nb & Nc).
  pose proof (cocycle (back d) (dir q a) (dir q b) (dir q c)) as Q.
  destruct (dir_scale q a Na) as (k & K & Ea & Ua). destruct (dir_scale q b Nb) as (l & L & Eb & Ub). destruct (dir_scale q c Nc) as (m & M & Ec & Uc).
  specialize (Q (back_unit d D) Ua Ub Uc (edge_clear q d a b Na Nb D E1) (edge_clear q d b c Nb Nc D E2) (edge_clear q d c a Nc Na D E3) (triangle_clear q a b c Off)).
  eexists. split; [exact S|]. rewrite Q. do 3 f_equal. rewrite Ea, Eb, Ec. unfold back. rewrite vscale_scale, !det3_scale.
  assert (I : 0 < / vlen d) by (apply Rinv_0_lt_compat, vlen_pos; exact D). set (h := / vlen d) in *.
  set (x := vsub a q). set (y := vsub b q). set (z := vsub c q).
  destruct (scale_sign (h * l * m) (-1 * h * l * m * det3 d y z) (- det3 d y z)) as [S1 S2]; [repeat apply Rmult_lt_0_compat; assumption|ring|].
  destruct (scale_sign (h * m * k) (-1 * h * m * k * det3 d z x) (- det3 d z x)) as [S3 S4]; [repeat apply Rmult_lt_0_compat; assumption|ring|].
  destruct (scale_sign (h * k * l) (-1 * h * k * l * det3 d x y) (- det3 d x y)) as [S5 S6]; [repeat apply Rmult_lt_0_compat; assumption|ring|].
  destruct (scale_sign (k * l * m) (k * l * m * det3 x y z) (det3 x y z)) as [S7 S8]; [repeat apply Rmult_lt_0_compat; assumption|ring|].
  apply side_ext; assumption.
Qed.
