(** C77: what mcEnqueueDispatchPlanarSection cuts with. *)
From Coq Require Import List Arith Bool Reals Lra Lia Psatz.
From Verif Require Import SectionModel SectionSpec SectionProofs SectionTri.
Import ListNotations.
Open Scope R_scope.

(** ** Convex sets *)
Lemma hull_le ps f k x : (forall p, In p ps -> scalar f p <= k) -> hull ps x -> scalar f x <= k.
Proof. intros P H. induction H as [p I|a b t _ A _ B T]; [apply P, I|]. rewrite scalar_at. nra. Qed.
Lemma hull_ge ps f k x : (forall p, In p ps -> k <= scalar f p) -> hull ps x -> k <= scalar f x.
Proof. intros P H. induction H as [p I|a b t _ A _ B T]; [apply P, I|]. rewrite scalar_at. nra. Qed.
Lemma hull_gt ps f k x : (forall p, In p ps -> k < scalar f p) -> hull ps x -> k < scalar f x.
Proof. intros P H. induction H as [p I|a b t _ A _ B T]; [apply P, I|]. rewrite scalar_at. destruct (Rle_lt_dec t 0); [nra|]. nra. Qed.
Definition combine3 (a b c : point) (r s t : R) : point := ad (ad (ml a r) (ml b s)) (ml c t).
Lemma hull_three a b c r s t : 0 <= r -> 0 <= s -> 0 <= t -> r + s + t = 1 -> hull [a; b; c] (combine3 a b c r s t).
Proof.
  intros R S T E. assert (A : hull [a; b; c] a) by (apply hull_vertex; left; reflexivity). assert (B : hull [a; b; c] b) by (apply hull_vertex; right; left; reflexivity). assert (C : hull [a; b; c] c) by (apply hull_vertex; right; right; left; reflexivity).
  destruct (Rle_lt_dec (r + s) 0) as [Z | P].
  - assert (r = 0) by lra. assert (s = 0) by lra. assert (t = 1) by lra. subst. replace (combine3 a b c 0 0 1) with c; [exact C|]. unfold combine3. crunch. veq; ring.
  - replace (combine3 a b c r s t) with (at_ (at_ a b (s / (r + s))) c t).
    + apply hull_between; [apply hull_between; [exact A|exact B|]|exact C|lra]. split; [apply Rmult_le_pos; [exact S|apply Rlt_le, Rinv_0_lt_compat, P]|]. apply Rmult_le_reg_r with (r + s); [exact P|]. unfold Rdiv. rewrite Rmult_assoc, Rinv_l by lra. lra.
    + assert (H : r = (r + s) - s) by lra. unfold combine3. replace t with (1 - (r + s)) by lra. crunch. veq; field; lra.
Qed.

(** ** The triangle in its plane *)
Notation h2 := (sqrt 2).
Lemma h2_facts : 0 < h2 /\ h2 * h2 = 2 /\ 7 / 5 < h2 < 3 / 2 /\ / h2 = h2 / 2.
Proof.
  assert (S : 0 < h2) by (apply sqrt_lt_R0; lra). pose proof (sqrt_sqrt 2 ltac:(lra)) as Q. split; [exact S|]. split; [exact Q|]. split; [split; nra|].
  apply Rmult_eq_reg_l with h2; [rewrite Rinv_r by lra; lra|lra].
Qed.
Section Plane.
Variables n U V m : vec.
Variable D : R.
Hypothesis F : frame n U V.
Hypothesis D0 : 0 <= D.
Notation v0 := (ad m (ml (ml (ad U V) (/ h2)) D)).
Notation v1 := (ad m (ml (ml (sb U V) (/ h2)) D)).
Notation v2 := (sb m (ml U D)).
Definition c_ := h2 - 1.

Lemma coords_n : scalar n v0 = scalar n m /\ scalar n v1 = scalar n m /\ scalar n v2 = scalar n m.
Proof. rewrite !scalar_add, !scalar_sub, !scalar_mul, scalar_add, scalar_sub, (fnu _ _ _ F), (fnv _ _ _ F). repeat split; ring. Qed.
Lemma coords_u : scalar U v0 = scalar U m + D * (h2 / 2) /\ scalar U v1 = scalar U m + D * (h2 / 2) /\ scalar U v2 = scalar U m - D.
Proof. destruct h2_facts as (_ & _ & _ & I). rewrite !scalar_add, !scalar_sub, !scalar_mul, scalar_add, scalar_sub, (fu _ _ _ F), (fuv _ _ _ F), I. repeat split; ring. Qed.
Lemma coords_v : scalar V v0 = scalar V m + D * (h2 / 2) /\ scalar V v1 = scalar V m - D * (h2 / 2) /\ scalar V v2 = scalar V m.
Proof. destruct h2_facts as (_ & _ & _ & I). rewrite !scalar_add, !scalar_sub, !scalar_mul, scalar_add, scalar_sub, (fv _ _ _ F), !(scalar_sym V U), (fuv _ _ _ F), I. repeat split; ring. Qed.

Lemma inside x : scalar n x = scalar n m -> scalar U x - scalar U m <= D * (h2 / 2) ->
  scalar V x - scalar V m <= c_ * (scalar U x - scalar U m + D) -> - (scalar V x - scalar V m) <= c_ * (scalar U x - scalar U m + D) -> in_triangle v0 v1 v2 x.
Proof.
  intros NX A B B'. destruct h2_facts as (S & Q & (Q1 & Q2) & I). unfold c_ in *. set (a := scalar U x - scalar U m) in *. set (b := scalar V x - scalar V m) in *.
  destruct coords_n as (N0 & N1 & N2). destruct coords_u as (U0 & U1 & U2). destruct coords_v as (V0 & V1 & V2).
  destruct (Req_EM_T D 0) as [Z | NZ].
  - (* all vertices are m *)
    assert (A0 : a = 0) by nra. assert (B0 : b = 0) by nra. replace x with v0; [apply hull_vertex; left; reflexivity|]. apply (frame_eq n U V); [exact F| | |].
    + rewrite N0. symmetry. exact NX.
    + rewrite U0, Z. unfold a in A0. lra.
    + rewrite V0, Z. unfold b in B0. lra.
  - assert (DP : 0 < D) by lra. set (p := (a / D + 1) * (2 - h2)). set (q := h2 * (b / D)).
    assert (EX : combine3 v0 v1 v2 ((p + q) / 2) ((p - q) / 2) (1 - p) = x).
    { apply (frame_eq n U V); [exact F| | |]; unfold combine3; rewrite !(scalar_add _ (ad _ _)), !(scalar_add _ (ml v0 _)), !scalar_mul.
      - rewrite N0, N1, N2, NX. field.
      - rewrite U0, U1, U2. replace (scalar U x) with (scalar U m + a) by (unfold a; ring). unfold p. transitivity (scalar U m + (((a / D + 1) * (2 - h2)) * (D * (h2 / 2) + D) - D)); [field; exact NZ|]. replace ((a / D + 1) * (2 - h2) * (D * (h2 / 2) + D)) with ((a / D + 1) * D * (2 - h2 * h2 / 2)) by (field; exact NZ). rewrite Q. field. exact NZ.
      - rewrite V0, V1, V2. replace (scalar V x) with (scalar V m + b) by (unfold b; ring). unfold q. transitivity (scalar V m + h2 * (b / D) * D * (h2 / 2)); [field; exact NZ|]. replace (h2 * (b / D) * D * (h2 / 2)) with (h2 * h2 * b / 2) by (field; exact NZ). rewrite Q. field. }
    rewrite <- EX. 
    assert (AD : a / D * D = a) by (field; exact NZ). assert (BD : b / D * D = b) by (field; exact NZ). set (a' := a / D) in *. set (b' := b / D) in *.
    assert (A1 : a' <= h2 / 2) by (apply Rmult_le_reg_r with D; [exact DP|]; rewrite AD; lra).
    assert (B1 : b' <= (h2 - 1) * (a' + 1)) by (apply Rmult_le_reg_r with D; [exact DP|]; rewrite BD; rewrite <- AD in B; lra).
    assert (B2 : - b' <= (h2 - 1) * (a' + 1)) by (apply Rmult_le_reg_r with D; [exact DP|]; replace (- b' * D) with (- b) by (rewrite <- BD; ring); rewrite <- AD in B'; lra).
    apply hull_three; unfold p, q.
    + assert (H : 0 <= (a' + 1) * (2 - h2) + h2 * b') by nra. lra.
    + assert (H : 0 <= (a' + 1) * (2 - h2) - h2 * b') by nra. lra.
    + assert (H : (a' + 1) * (2 - h2) <= 1) by nra. lra.
    + field.
Qed.
End Plane.

Lemma sq_le x y : 0 <= y -> x * x <= y * y -> x <= y. Proof. intros. nra. Qed.
Lemma round_bounds a b D : 0 <= D -> a * a + b * b <= (2 - h2) / 4 * (D * D) -> a <= D * (h2 / 2) /\ b - c_ * a <= c_ * D /\ - b - c_ * a <= c_ * D.
Proof.
  intros D0 H. destruct h2_facts as (S & Q & (Q1 & Q2) & _). unfold c_ in *. 
  assert (C2 : (h2 - 1) * (h2 - 1) = 3 - 2 * h2) by nra.
  assert (G : forall b, a * a + b * b <= (2 - h2) / 4 * (D * D) -> b - (h2 - 1) * a <= (h2 - 1) * D).
  { clear b H. intros b H. apply sq_le; [nra|]. replace ((h2 - 1) * D * ((h2 - 1) * D)) with ((h2 - 1) * (h2 - 1) * (D * D)) by ring. rewrite C2.
    assert (CS : (b - (h2 - 1) * a) * (b - (h2 - 1) * a) <= (1 + (h2 - 1) * (h2 - 1)) * (a * a + b * b)). { pose proof (Rle_0_sqr (a + (h2 - 1) * b)) as SQ. unfold Rsqr in SQ. assert (I : (1 + (h2 - 1) * (h2 - 1)) * (a * a + b * b) = (b - (h2 - 1) * a) * (b - (h2 - 1) * a) + (a + (h2 - 1) * b) * (a + (h2 - 1) * b)) by ring. lra. }
    rewrite C2 in CS. assert (E : (1 + (3 - 2 * h2)) * ((2 - h2) / 4 * (D * D)) = (3 - 2 * h2) * (D * D)). { replace ((1 + (3 - 2 * h2)) * ((2 - h2) / 4 * (D * D))) with ((8 - 8 * h2 + 2 * (h2 * h2)) / 4 * (D * D)) by field. rewrite Q. field. }
    rewrite <- E. apply Rle_trans with (1 := CS). apply Rmult_le_compat_l; lra. }
  split; [|split].
  - apply sq_le; [nra|]. replace (D * (h2 / 2) * (D * (h2 / 2))) with (h2 * h2 / 4 * (D * D)) by field. rewrite Q. assert (0 <= D * D) by nra. assert (0 <= b * b) by nra. nra.
  - apply G, H.
  - apply G. lra.
Qed.

(** ** The theorems *)
Definition exact : R -> R := fun x => x.

(** The triangle is there unless the normal vector points to the negative side of the first or of the second axis. *)
Theorem C77_defined : forall vs n o e, vs <> [] ->
  (triangle exact exact vs n o e = None <-> n = (0, 0, 0) \/ exists s, 0 < s /\ (n = (- s, 0, 0) \/ n = (0, - s, 0))).
Proof.
  change exact with id_. intros vs n o e NE. split.
  - intros T. destruct (Req_EM_T (scalar n n) 0) as [Z | NZ]; [left; apply scalar_zero, Z|right].
    destruct n as [[x y] z]. destruct (Req_EM_T z 0) as [-> | Z].
    + destruct (Req_EM_T y 0) as [-> | Y].
      * destruct (Rlt_dec x 0) as [X | X]; [exists (- x); split; [lra|left; rewrite Ropp_involutive; reflexivity]|]. exfalso. destruct (triangle_form vs (x, 0, 0) o e NE) as (n & U & V & l & D & _ & _ & _ & _ & _ & _ & E); [intros E; injection E as ->; apply NZ; cbn; ring|intros s P; split; intros E; injection E; lra|]. rewrite T in E. discriminate.
      * destruct (Req_EM_T x 0) as [-> | X].
        -- destruct (Rlt_dec y 0) as [Y' | Y']; [exists (- y); split; [lra|right; rewrite Ropp_involutive; reflexivity]|]. exfalso. destruct (triangle_form vs (0, y, 0) o e NE) as (n & U & V & l & D & _ & _ & _ & _ & _ & _ & E); [intros E; injection E; lra|intros s P; split; intros E; injection E; lra|]. rewrite T in E. discriminate.
        -- exfalso. destruct (triangle_form vs (x, y, 0) o e NE) as (n & U & V & l & D & _ & _ & _ & _ & _ & _ & E); [intros E; injection E; lra|intros s P; split; intros E; injection E; lra|]. rewrite T in E. discriminate.
    + exfalso. destruct (triangle_form vs (x, y, z) o e NE) as (n & U & V & l & D & _ & _ & _ & _ & _ & _ & E); [intros E; injection E; lra|intros s P; split; intros E; injection E; lra|]. rewrite T in E. discriminate.
  - intros [-> | (s & P & H)].
    + unfold triangle. rewrite normalize_zero. reflexivity.
    + unfold triangle. assert (N0 : n <> (0, 0, 0)) by (destruct H as [-> | ->]; intros E; injection E; lra). rewrite (normalize_some n N0).
      assert (B : bad (ml n (/ sqrt (scalar n n)))).
      { assert (SS : sqrt (scalar n n) = s) by (replace (scalar n n) with (s * s) by (destruct H as [-> | ->]; cbn; ring); apply sqrt_square; lra). rewrite SS. destruct H as [-> | ->]; [left|right]; cbn; unfold id_; veq; field; lra. }
      set (n' := ml n (/ sqrt (scalar n n))) in *. rewrite (mean_eq n' vs NE). cbn zeta. rewrite (other_bad n' B).
      assert (Z : cr n' (0, 0, 0) = (0, 0, 0)) by (destruct n' as [[a b] c]; cbn; unfold id_; veq; ring). rewrite Z.
      assert (Z' : ad (0, 0, 0) (0, 0, 0) = (0, 0, 0)) by (cbn; unfold id_; veq; ring). rewrite Z', normalize_zero. reflexivity.
Qed.

(** In double precision too: for these two normal vectors a zero vector is normalized. *)
Theorem C77_axis_refuted : forall rnd narrow vs n o e, rnd 0 = 0 -> rnd 1 = 1 -> rnd (-1) = -1 -> n = (-1, 0, 0) \/ n = (0, -1, 0) -> triangle rnd narrow vs n o e = None.
Proof.
  intros rnd narrow vs n o e R0 R1 Rm B. unfold triangle.
  assert (E : eqb 1 (-1) = false) by (apply eqb_no; lra). assert (E1 : eqb 1 0 = false) by (apply eqb_no; lra).
  assert (NN : normalize rnd n = Some n).
  { unfold normalize, length, dot, div. destruct B as [-> | ->].
    - replace (-1 * -1) with 1 by ring. rewrite !Rmult_0_l, R0, R1, !Rplus_0_r, R1, R1, sqrt_1, R1, E1. f_equal. replace (-1 / 1) with (-1) by field. replace (0 / 1) with 0 by field. rewrite Rm, R0. reflexivity.
    - replace (-1 * -1) with 1 by ring. rewrite !Rmult_0_l, R0, R1, !Rplus_0_r, Rplus_0_l, R1, R1, sqrt_1, R1, E1. f_equal. replace (-1 / 1) with (-1) by field. replace (0 / 1) with 0 by field. rewrite Rm, R0. reflexivity. }
  rewrite NN. destruct (div _ _ _) as [mean|]; [|reflexivity]. cbn zeta.
  assert (U0 : cross rnd n (other_vector n) = (0, 0, 0)).
  { destruct B as [-> | ->]; unfold other_vector; [rewrite largest_x|rewrite largest_y]; unfold same, unit; rewrite E, ?andb_false_r; cbn [cross andb]; rewrite ?Rmult_0_l, ?Rmult_0_r, ?R0, ?Rminus_0_r, ?R0; reflexivity. }
  rewrite U0. assert (V0 : cross rnd n (0, 0, 0) = (0, 0, 0)) by (destruct n as [[x y] z]; cbn; rewrite !Rmult_0_r, R0, Rminus_0_r, R0; reflexivity). rewrite V0.
  assert (A0 : add rnd (0, 0, 0) (0, 0, 0) = (0, 0, 0)) by (cbn; rewrite Rplus_0_r, R0; reflexivity). rewrite A0.
  assert (Z : normalize rnd (0, 0, 0) = None). { unfold normalize, length, dot, div. rewrite Rmult_0_l. repeat first [rewrite R0|rewrite Rplus_0_r|rewrite sqrt_0]. rewrite eqb_refl. reflexivity. }
  rewrite Z. reflexivity.
Qed.

(** Whatever the offset, the triangle is the same. *)
Theorem C77_offset_refuted : forall rnd narrow vs n o o' e, triangle rnd narrow vs n o e = triangle rnd narrow vs n o' e.
Proof. reflexivity. Qed.

Lemma triangle_some vs n o e a b c : vs <> [] -> triangle exact exact vs n o e = Some (a, b, c) ->
  n <> (0, 0, 0) /\ forall s, 0 < s -> n <> (- s, 0, 0) /\ n <> (0, - s, 0).
Proof.
  intros NE E. assert (H : ~ (n = (0, 0, 0) \/ exists s, 0 < s /\ (n = (- s, 0, 0) \/ n = (0, - s, 0)))) by (intros H; apply (C77_defined vs n o e NE) in H; congruence).
  split; [intros N; apply H; left; exact N|]. intros s P. split; intros N; apply H; right; exists s; auto.
Qed.
Lemma scalar_foot n p : scalar n n <> 0 -> scalar n (foot n p) = 0.
Proof. intros N. destruct n as [[a b] c], p as [[x y] z]. unfold foot. cbn in *. field. exact N. Qed.
Lemma scalar_l a s b : scalar (ml a s) b = s * scalar a b. Proof. crunch. ring. Qed.

(** It is always in the plane through the origin. *)
Theorem C77_plane : forall vs n o e a b c, vs <> [] -> triangle exact exact vs n o e = Some (a, b, c) -> forall x, in_triangle a b c x -> scalar n x = 0.
Proof.
  intros vs n o e a b c NE E x X. destruct (triangle_some _ _ _ _ _ _ _ NE E) as [N0 NB]. destruct (triangle_form vs n o e NE N0 NB) as (n' & U & V & l & D & L & EN & F & _ & D0 & _ & E'). change exact with id_ in E. rewrite E in E'. remember (foot n (mean vs)) as m eqn:EM in E'. injection E' as -> -> ->.
  destruct (coords_n n' U V m D F) as (A0 & A1 & A2).
  assert (M0 : scalar n m = 0). { rewrite EM. apply scalar_foot. intros Z. apply N0, scalar_zero, Z. }
  assert (V3 : forall p, In p [ad m (ml (ml (ad U V) (/ h2)) D); ad m (ml (ml (sb U V) (/ h2)) D); sb m (ml U D)] -> scalar n p = 0).
  { rewrite EN, scalar_l in M0. intros p I. rewrite EN, scalar_l. destruct I as [<-|[<-|[<-|[]]]]; rewrite ?A0, ?A1, ?A2; exact M0. }
  pose proof (hull_le _ n 0 x (fun p I => Req_le _ _ (V3 p I)) X). pose proof (hull_ge _ n 0 x (fun p I => Req_le_sym _ _ (V3 p I)) X). lra.
Qed.

(** So a mesh that the plane through the origin does not meet is not cut at all, although the section asked for is not empty. *)
Theorem C77_missed_refuted : forall vs n o e h, vs <> [] -> (forall p, In p vs -> 0 < scalar n p) -> 0 <= o <= 1 -> height_of n vs o h ->
  (exists x, hull vs x /\ scalar n x = h) /\ forall a b c x, triangle exact exact vs n o e = Some (a, b, c) -> hull vs x -> ~ in_triangle a b c x.
Proof.
  intros vs n o e h NE P O (lo & hi & LI & HI & B & ->). split.
  - exists (at_ lo hi o). split; [apply hull_between; [apply hull_vertex, LI|apply hull_vertex, HI|exact O]|apply scalar_at].
  - intros a b c x E X T. pose proof (hull_gt vs n 0 x P X). pose proof (C77_plane vs n o e a b c NE E x T). lra.
Qed.

(** The triangle has an area unless the mesh has no extent. *)
Theorem C77_proper : forall vs n o e a b c l h, vs <> [] -> box_of vs l h -> l <> h -> triangle exact exact vs n o e = Some (a, b, c) -> a <> b /\ forall t, c <> at_ a b t.
Proof.
  intros vs n o e a b c l h NE BX LH E. destruct (triangle_some _ _ _ _ _ _ _ NE E) as [N0 NB]. destruct (triangle_form vs n o e NE N0 NB) as (n' & U & V & k & D & K & EN & F & _ & D0 & DB & E'). change exact with id_ in E. rewrite E in E'. remember (foot n (mean vs)) as m eqn:EM in E'. injection E' as -> -> ->.
  destruct (DB l h BX) as [DD _]. assert (P : 0 < distance2 l h). { destruct (scalar_pos (minus l h)) as [P | P]; [exact P|]. exfalso. apply LH. symmetry in P. apply scalar_zero in P. destruct l as [[x y] z], h as [[x' y'] z']. cbn in P. injection P as P1 P2 P3. veq; lra. }
  assert (DP : 0 < D) by nra. destruct h2_facts as (S & _). destruct (coords_u n' U V m D F) as (A0 & A1 & A2). destruct (coords_v n' U V m D F) as (B0 & B1 & B2). split.
  - intros EQ. apply (f_equal (scalar V)) in EQ. rewrite B0, B1 in EQ. nra.
  - intros t EQ. apply (f_equal (scalar U)) in EQ. rewrite scalar_at, A0, A1, A2 in EQ. nra.
Qed.

Lemma foot_scalar n' U n k p : n = ml n' k -> scalar n' U = 0 -> scalar U (foot n p) = scalar U p.
Proof. intros -> Z. destruct n' as [[a b] c], U as [[x y] z], p as [[px py] pz]. unfold foot. set (t := scalar _ _ / _). cbn in *. unfold id_. transitivity (x * px + y * py + z * pz - t * k * (a * x + b * y + c * z)); [ring|]. rewrite Z. ring. Qed.
Lemma scalar_minus a b c : scalar a (minus b c) = scalar a b - scalar a c. Proof. crunch. ring. Qed.

(** If the offset happens to stand for that plane, and the feet of all vertices are near enough to that of the mean, the whole section is cut. *)
Theorem C77_section_partial : forall vs n o e a b c l h, vs <> [] -> triangle exact exact vs n o e = Some (a, b, c) -> height_of n vs o 0 -> box_of vs l h ->
  (forall p, In p vs -> distance2 (foot n p) (foot n (mean vs)) <= (2 - sqrt 2) * distance2 l h) ->
  forall x, hull vs x -> scalar n x = 0 -> in_triangle a b c x.
Proof.
  intros vs n o e a b c l h NE E _ BX NEAR x X NX. destruct (triangle_some _ _ _ _ _ _ _ NE E) as [N0 NB]. destruct (triangle_form vs n o e NE N0 NB) as (n' & U & V & k & D & K & EN & F & _ & D0 & DB & E'). change exact with id_ in E. rewrite E in E'. remember (foot n (mean vs)) as m eqn:EM in E'. injection E' as -> -> ->.
  destruct (DB l h BX) as [DD _]. destruct h2_facts as (S & Q & (Q1 & Q2) & _). 
  assert (M0 : scalar n m = 0) by (rewrite EM; apply scalar_foot; intros Z; apply N0, scalar_zero, Z).
  assert (BD : forall p, In p vs -> scalar U p - scalar U m <= D * (h2 / 2) /\ (scalar V p - scalar V m) - c_ * (scalar U p - scalar U m) <= c_ * D /\ - (scalar V p - scalar V m) - c_ * (scalar U p - scalar U m) <= c_ * D).
  { intros p I. apply round_bounds; [exact D0|]. specialize (NEAR p I). rewrite <- EM in NEAR. unfold distance2 in NEAR at 1. rewrite (frame_len n' U V _ F), !scalar_minus, (foot_scalar n' U n k p EN (fnu _ _ _ F)), (foot_scalar n' V n k p EN (fnv _ _ _ F)) in NEAR.
    pose proof (Rle_0_sqr (scalar n' (foot n p) - scalar n' m)) as SQ. unfold Rsqr in SQ. assert ((2 - h2) * distance2 l h <= (2 - h2) / 4 * (D * D)) by nra. lra. }
  assert (LIN : forall f k, (forall p, In p vs -> scalar f p <= k) -> scalar f x <= k) by (intros f k0 H; apply (hull_le vs f k0 x H X)).
  assert (LC : forall s q, scalar (sb (ml V s) (ml U c_)) q = s * scalar V q - c_ * scalar U q) by (intros s q; rewrite scalar_sym, scalar_sub, !scalar_mul, (scalar_sym q V), (scalar_sym q U); ring).
  apply (inside n' U V m D F D0 x).
  - rewrite EN, scalar_l in NX, M0. assert (k <> 0) by lra. apply Rmult_eq_reg_l with k; [rewrite NX, M0; reflexivity|assumption].
  - assert (H : scalar U x <= scalar U m + D * (h2 / 2)) by (apply LIN; intros p I; destruct (BD p I); lra). lra.
  - assert (H : scalar (sb (ml V 1) (ml U c_)) x <= scalar V m - c_ * scalar U m + c_ * D) by (apply LIN; intros p I; rewrite LC; destruct (BD p I) as (_ & H & _); lra). rewrite LC in H. lra.
  - assert (H : scalar (sb (ml V (-1)) (ml U c_)) x <= - scalar V m - c_ * scalar U m + c_ * D) by (apply LIN; intros p I; rewrite LC; destruct (BD p I) as (_ & _ & H); lra). rewrite LC in H. lra.
Qed.

(** In particular if the mean is not farther from the centre of the bounding box than a quarter of its diagonal. *)
Theorem C77_centred_partial : forall vs n o e a b c l h, vs <> [] -> triangle exact exact vs n o e = Some (a, b, c) -> height_of n vs o 0 -> box_of vs l h ->
  16 * distance2 (mean vs) (at_ l h (1 / 2)) <= distance2 l h -> forall x, hull vs x -> scalar n x = 0 -> in_triangle a b c x.
Proof.
  intros vs n o e a b c l h NE E H0 BX NEAR. apply (C77_section_partial vs n o e a b c l h NE E H0 BX). intros p I.
  destruct (triangle_some _ _ _ _ _ _ _ NE E) as [N0 NB]. destruct h2_facts as (S & Q & (Q1 & Q2) & _).
  set (m := mean vs) in *. set (ce := at_ l h (1 / 2)) in *.
  assert (FD : distance2 (foot n p) (foot n m) <= distance2 p m).
  { assert (NN : scalar n n <> 0) by (intros Z; apply N0, scalar_zero, Z). assert (ID : distance2 p m = distance2 (foot n p) (foot n m) + (scalar n p - scalar n m) * (scalar n p - scalar n m) / scalar n n). { destruct n as [[x y] z], p as [[px py] pz], m as [[mx my] mz]. unfold foot, distance2, minus, scalar in *. field. exact NN. }
    rewrite ID. assert (0 <= (scalar n p - scalar n m) * (scalar n p - scalar n m) / scalar n n); [|lra]. apply Rmult_le_pos; [apply Rle_0_sqr|]. apply Rlt_le, Rinv_0_lt_compat. pose proof (scalar_pos n). lra. }
  assert (PC : 4 * distance2 p ce <= distance2 l h).
  { destruct BX as ((_ & _ & X) & (_ & _ & Y) & (_ & _ & Z)). specialize (X p I). specialize (Y p I). specialize (Z p I). unfold ce. destruct p as [[px py] pz], l as [[lx ly] lz], h as [[hx hy] hz]. cbn [fst snd] in *. unfold distance2, minus, scalar, at_.
    assert (G : forall q u v, u <= q <= v -> 4 * ((q - (u + 1 / 2 * (v - u))) * (q - (u + 1 / 2 * (v - u)))) <= (u - v) * (u - v)) by (intros q u v W; nra). pose proof (G px lx hx X). pose proof (G py ly hy Y). pose proof (G pz lz hz Z). lra. }
  assert (TR : distance2 p m <= 3 / 2 * distance2 p ce + 3 * distance2 m ce).
  { clear. destruct p as [[px py] pz], m as [[mx my] mz], ce as [[cx cy] cz]. unfold distance2, minus, scalar. assert (G : forall x y z, (x - y) * (x - y) <= 3 / 2 * ((x - z) * (x - z)) + 3 * ((y - z) * (y - z))) by (intros x y z; pose proof (Rle_0_sqr ((x - z) + 2 * (y - z))) as SQ; unfold Rsqr in SQ; nra). pose proof (G px mx cx). pose proof (G py my cy). pose proof (G pz mz cz). lra. }
  assert (0 <= distance2 l h) by apply scalar_pos. nra.
Qed.
