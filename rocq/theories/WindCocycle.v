(** The half solid angle of a spherical triangle as a sum over its edges, up to full turns. *)
From Coq Require Import List ZArith Reals Lra Psatz Bool.
From Verif Require Import GeoModel WindModel WindAngle.
Import ListNotations.
Open Scope R_scope.

Definition det3 (a b c : vec3) : R := dot_product a (cross_product b c).
Definition unit (a : vec3) : Prop := dot_product a a = 1.
(** real and imaginary part of the product of three unit spinors, times 4 *)
Definition zre (a b c : vec3) : R := 1 + dot_product a b + dot_product b c + dot_product c a.
Definition arg (a b c : vec3) : R := atan2 (det3 a b c) (zre a b c).
(** the origin is not on the triangle *)
Definition clear (a b c : vec3) : Prop := det3 a b c <> 0 \/ 0 < zre a b c.
Definition pole : vec3 := (0, 0, 1).

(** ** A rotation taking a unit vector to the pole *)
Lemma frame n : unit n -> exists phi : vec3 -> vec3,
  (forall u v, dot_product (phi u) (phi v) = dot_product u v) /\
  (forall u v w, det3 (phi u) (phi v) (phi w) = det3 u v w) /\ phi n = pole.
Proof.
  destruct n as [[x y] z]. unfold unit, dot_product, pole. intros U.
  destruct (Req_dec z 1) as [->|N].
  - exists (fun v => v). repeat split. assert (x = 0) by nra. assert (y = 0) by nra. subst. reflexivity.
  - set (k := / (1 - z)).
    exists (fun v => let '(a, b, c) := v in
      let s := (x * a + y * b + (z - 1) * c) * k in (b - s * y, a - s * x, c - s * (z - 1))).
    assert (K : (1 - z) * k = 1) by (unfold k; field; lra).
    assert (W : x * x + y * y + (z - 1) * (z - 1) = 2 * (1 - z)) by lra.
    split; [|split].
    + intros [[a b] c] [[a' b'] c'].
      set (s := x * a + y * b + (z - 1) * c). set (s' := x * a' + y * b' + (z - 1) * c').
      transitivity (a * a' + b * b' + c * c' - 2 * k * s * s' + k * k * s * s' * (x * x + y * y + (z - 1) * (z - 1))).
      { unfold s, s'. ring. }
      rewrite W. replace (k * k * s * s' * (2 * (1 - z))) with (2 * k * s * s' * ((1 - z) * k)) by ring. rewrite K. ring.
    + intros [[a b] c] [[a' b'] c'] [[a'' b''] c'']. unfold det3, dot_product, cross_product.
      set (D := a * (b' * c'' - c' * b'') + b * (c' * a'' - a' * c'') + c * (a' * b'' - b' * a'')).
      transitivity (- D + k * (x * x + y * y + (z - 1) * (z - 1)) * D); [unfold D; ring|].
      rewrite W. replace (k * (2 * (1 - z)) * D) with (2 * ((1 - z) * k) * D) by ring. rewrite K. unfold D. ring.
    + replace (x * x + y * y + (z - 1) * z) with (1 - z) by lra. rewrite K. cbv zeta. replace (y - 1 * y) with 0 by ring; replace (x - 1 * x) with 0 by ring; replace (z - 1 * (z - 1)) with 1 by ring; reflexivity.
Qed.

(** ** Identities with the pole *)
Lemma spin_re a b c : unit a -> unit b -> unit c ->
  let r1 := zre pole a b in let i1 := det3 pole a b in
  let r2 := zre pole b c in let i2 := det3 pole b c in
  let r3 := zre pole c a in let i3 := det3 pole c a in
  let k := 2 * ((1 + dot_product pole a) * (1 + dot_product pole b) * (1 + dot_product pole c)) in
  (r1 * r2 - i1 * i2) * r3 - (r1 * i2 + i1 * r2) * i3 = k * zre a b c /\
  (r1 * r2 - i1 * i2) * i3 + (r1 * i2 + i1 * r2) * r3 = k * det3 a b c.
Proof.
  destruct a as [[a1 a2] a3], b as [[b1 b2] b3], c as [[c1 c2] c3].
  unfold unit, zre, det3, dot_product, cross_product, pole. intros A B C. cbv zeta.
  assert (A' : a1 * a1 = 1 - a2 * a2 - a3 * a3) by lra.
  assert (B' : b1 * b1 = 1 - b2 * b2 - b3 * b3) by lra.
  assert (C' : c1 * c1 = 1 - c2 * c2 - c3 * c3) by lra.
  split; ring [A' B' C'].
Qed.

(** the angle at the pole *)
Definition across (b c : vec3) : R := dot_product b c - dot_product pole b * dot_product pole c.
Lemma zre_across b c : zre pole b c = across b c + (1 + dot_product pole b) * (1 + dot_product pole c).
Proof.
  destruct b as [[b1 b2] b3], c as [[c1 c2] c3]. unfold zre, across, dot_product, pole. ring.
Qed.
Lemma turn a b c :
  let r1 := across a b in let i1 := det3 pole a b in
  let r2 := across b c in let i2 := det3 pole b c in
  let r3 := across c a in let i3 := det3 pole c a in
  let k := across a a * across b b * across c c in
  (r1 * r2 - i1 * i2) * r3 - (r1 * i2 + i1 * r2) * i3 = k * 1 /\
  (r1 * r2 - i1 * i2) * i3 + (r1 * i2 + i1 * r2) * r3 = k * 0.
Proof.
  destruct a as [[a1 a2] a3], b as [[b1 b2] b3], c as [[c1 c2] c3].
  unfold across, det3, dot_product, cross_product, pole. cbv zeta. split; ring.
Qed.
Lemma across_pos b c : det3 pole b c <> 0 -> 0 < across b b /\ 0 < across c c.
Proof.
  destruct b as [[b1 b2] b3], c as [[c1 c2] c3]. unfold across, det3, dot_product, cross_product, pole. intros N.
  split; ring_simplify.
  - destruct (Req_dec b1 0) as [->|N1]; [destruct (Req_dec b2 0) as [->|N2]|]; [exfalso; apply N; ring|destruct (Rdichotomy _ _ N2); nra|].
    pose proof (pow2_ge_0 b2). assert (0 < b1 ^ 2) by (destruct (Rdichotomy _ _ N1); nra). lra.
  - destruct (Req_dec c1 0) as [->|N1]; [destruct (Req_dec c2 0) as [->|N2]|]; [exfalso; apply N; ring|destruct (Rdichotomy _ _ N2); nra|].
    pose proof (pow2_ge_0 c2). assert (0 < c1 ^ 2) by (destruct (Rdichotomy _ _ N1); nra). lra.
Qed.

Lemma cramer_pole a b c :
  dot_product pole a * det3 pole b c + dot_product pole b * det3 pole c a + dot_product pole c * det3 pole a b = det3 a b c.
Proof.
  destruct a as [[a1 a2] a3], b as [[b1 b2] b3], c as [[c1 c2] c3]. unfold det3, dot_product, cross_product, pole. ring.
Qed.

Lemma above a b : unit a -> clear pole a b -> 0 < 1 + dot_product pole a.
Proof.
  destruct a as [[a1 a2] a3], b as [[b1 b2] b3]. unfold unit, clear, zre, det3, dot_product, cross_product, pole. intros U H.
  destruct (Rlt_le_dec 0 (1 + (0 + 0 * a1 + 0 * a2 + 1 * a3))) as [L|L]; [exact L|exfalso].
  assert (a3 = -1) by nra. subst a3. assert (a1 = 0) by nra. assert (a2 = 0) by nra. subst. lra.
Qed.

(** ** The turning of an edge seen from the pole *)
Definition side (a b c d : R) : Z :=
  if ltb a 0 && ltb b 0 && ltb c 0 && ltb 0 d then 1%Z
  else if ltb 0 a && ltb 0 b && ltb 0 c && ltb d 0 then (-1)%Z else 0%Z.

(** the polar angle is at most the angle at the pole *)
Lemma arg_lt_turn b c : unit b -> unit c -> 0 < 1 + dot_product pole b -> 0 < 1 + dot_product pole c -> 0 < det3 pole b c ->
  0 < arg pole b c < atan2 (det3 pole b c) (across b c) /\ atan2 (det3 pole b c) (across b c) < PI.
Proof.
  intros Ub Uc Pb Pc D. unfold arg. rewrite zre_across.
  pose proof (atan2_pos (across b c + (1 + dot_product pole b) * (1 + dot_product pole c)) _ D) as R1.
  pose proof (atan2_pos (across b c) _ D) as R2.
  pose proof (atan2_right (across b c) _ ((1 + dot_product pole b) * (1 + dot_product pole c)) D) as R3.
  assert (0 < (1 + dot_product pole b) * (1 + dot_product pole c)) by (apply Rmult_lt_0_compat; assumption). specialize (R3 H). lra.
Qed.

Lemma turns a b c : det3 pole a b <> 0 -> det3 pole b c <> 0 -> det3 pole c a <> 0 ->
  exists k : Z, atan2 (det3 pole a b) (across a b) + atan2 (det3 pole b c) (across b c) + atan2 (det3 pole c a) (across c a) = IZR k * (2 * PI).
Proof.
  intros N1 N2 N3. destruct (turn a b c) as [T1 T2]. cbv zeta in T1, T2.
  assert (P : polar 1 0 0) by (exists 1; rewrite cos_0, sin_0; repeat split; lra).
  destruct (across_pos _ _ N1) as [Pa Pb]. destruct (across_pos _ _ N2) as [_ Pc].
  assert (K : 0 < across a a * across b b * across c c) by (repeat apply Rmult_lt_0_compat; assumption).
  pose proof (polar_scale _ _ _ _ K P) as Q. rewrite <- T1, <- T2 in Q.
  pose proof (polar_mul _ _ _ _ _ _ (polar_mul _ _ _ _ _ _ (polar_atan2 (across a b) (det3 pole a b) (or_introl N1))
    (polar_atan2 (across b c) (det3 pole b c) (or_introl N2))) (polar_atan2 (across c a) (det3 pole c a) (or_introl N3))) as Q'.
  destruct (polar_unique _ _ _ _ Q' Q) as (k & Ek). exists k. lra.
Qed.

(** the general cocycle up to full turns *)
Lemma cocycle_mod a b c : unit a -> unit b -> unit c ->
  clear pole a b -> clear pole b c -> clear pole c a -> clear a b c ->
  exists k : Z, arg a b c = arg pole a b + arg pole b c + arg pole c a + IZR k * (2 * PI).
Proof.
  intros Ua Ub Uc C1 C2 C3 C4. destruct (spin_re a b c Ua Ub Uc) as [T1 T2]. cbv zeta in T1, T2.
  pose proof (above a b Ua C1) as Pa. pose proof (above b c Ub C2) as Pb. pose proof (above c a Uc C3) as Pc.
  assert (K : 0 < 2 * ((1 + dot_product pole a) * (1 + dot_product pole b) * (1 + dot_product pole c))) by (repeat apply Rmult_lt_0_compat; lra).
  pose proof (polar_scale _ _ _ _ K (polar_atan2 (zre a b c) (det3 a b c) C4)) as Q. rewrite <- T1, <- T2 in Q.
  pose proof (polar_mul _ _ _ _ _ _ (polar_mul _ _ _ _ _ _ (polar_atan2 (zre pole a b) (det3 pole a b) C1)
    (polar_atan2 (zre pole b c) (det3 pole b c) C2)) (polar_atan2 (zre pole c a) (det3 pole c a) C3)) as Q'.
  destruct (polar_unique _ _ _ _ Q Q') as (k & Ek). exists k. exact Ek.
Qed.

Lemma det3_swap a b c : det3 a c b = - det3 a b c.
Proof. destruct a as [[a1 a2] a3], b as [[b1 b2] b3], c as [[c1 c2] c3]. unfold det3, dot_product, cross_product. ring. Qed.
Lemma det3_cycle a b c : det3 b c a = det3 a b c.
Proof. destruct a as [[a1 a2] a3], b as [[b1 b2] b3], c as [[c1 c2] c3]. unfold det3, dot_product, cross_product. ring. Qed.
Lemma dot_comm a b : dot_product a b = dot_product b a.
Proof. destruct a as [[a1 a2] a3], b as [[b1 b2] b3]. unfold dot_product. ring. Qed.
Lemma zre_swap a b c : zre a c b = zre a b c.
Proof. unfold zre. rewrite (dot_comm a c), (dot_comm c b), (dot_comm b a). ring. Qed.
Lemma zre_cycle a b c : zre b c a = zre a b c.
Proof. unfold zre. ring. Qed.
Lemma clear_swap a b c : clear a b c -> clear a c b.
Proof. unfold clear. rewrite (det3_swap a b c), (zre_swap a b c). intros [H|H]; [left; lra|right; exact H]. Qed.
Lemma clear_cycle a b c : clear a b c -> clear b c a.
Proof. unfold clear. rewrite (det3_cycle a b c), (zre_cycle a b c). auto. Qed.
Lemma arg_swap a b c : clear a b c -> arg a c b = - arg a b c.
Proof. intros H. unfold arg. rewrite (det3_swap a b c), (zre_swap a b c). apply atan2_odd. exact H. Qed.
Lemma arg_cycle a b c : arg b c a = arg a b c.
Proof. unfold arg. rewrite (det3_cycle a b c), (zre_cycle a b c). reflexivity. Qed.

Lemma arg_sign a b c : clear a b c ->
  (0 < det3 a b c /\ 0 < arg a b c < PI) \/ (det3 a b c = 0 /\ arg a b c = 0) \/ (det3 a b c < 0 /\ - PI < arg a b c < 0).
Proof.
  intros H. unfold arg. destruct (Rtotal_order (det3 a b c) 0) as [N | [Z | P]].
  - right; right. split; [exact N|apply atan2_neg; exact N].
  - right; left. split; [exact Z|]. rewrite Z. apply atan2_zero. destruct H; [contradiction|assumption].
  - left. split; [exact P|apply atan2_pos; exact P].
Qed.

Lemma above_r a b : unit b -> clear pole a b -> 0 < 1 + dot_product pole b.
Proof. intros U H. apply (above b a U). apply clear_swap. exact H. Qed.

(** three turns to the left around the pole *)
Lemma three_left a b c : unit a -> unit b -> unit c -> 0 < 1 + dot_product pole a -> 0 < 1 + dot_product pole b -> 0 < 1 + dot_product pole c ->
  0 < det3 pole a b -> 0 < det3 pole b c -> 0 < det3 pole c a ->
  arg pole a b + arg pole b c + arg pole c a < 2 * PI.
Proof.
  intros Ua Ub Uc Pa Pb Pc D1 D2 D3.
  pose proof (arg_lt_turn a b Ua Ub Pa Pb D1) as T1. pose proof (arg_lt_turn b c Ub Uc Pb Pc D2) as T2. pose proof (arg_lt_turn c a Uc Ua Pc Pa D3) as T3.
  destruct (turns a b c) as (k & E); try lra. assert (k = 1%Z); [|subst k; lra].
  apply multiple_is. rewrite <- E. pose proof PI_RGT_0. split; lra.
Qed.

(** two turns to the left and one to the right *)
Lemma two_left a b c : unit a -> unit b -> unit c -> 0 < 1 + dot_product pole a -> 0 < 1 + dot_product pole b -> 0 < 1 + dot_product pole c ->
  det3 pole a b < 0 -> 0 < det3 pole b c -> 0 < det3 pole c a ->
  arg pole b c + arg pole c a < PI.
Proof.
  intros Ua Ub Uc Pa Pb Pc D1 D2 D3.
  pose proof (atan2_neg (across a b) _ D1) as T1. pose proof (arg_lt_turn b c Ub Uc Pb Pc D2) as T2. pose proof (arg_lt_turn c a Uc Ua Pc Pa D3) as T3.
  destruct (turns a b c) as (k & E); try lra. assert (k = 0%Z); [|subst k; lra].
  apply multiple_is. rewrite <- E. pose proof PI_RGT_0. split; lra.
Qed.

(** an edge through the pole's antipode is not clear *)
Lemma no_antipode a b c : unit b -> unit c -> det3 pole b c = 0 -> clear pole b c -> 0 < det3 pole c a -> 0 < det3 pole a b -> 0 <= det3 a b c.
Proof.
  intros Ub Uc Z C B' C'. destruct C as [C|C]; [contradiction|].
  destruct (Rle_lt_dec 0 (det3 a b c)) as [L|L]; [exact L|exfalso].
  revert Ub Uc Z C B' C' L.
  set (D := det3 a b c). set (B := det3 pole c a). set (G := det3 pole a b). intros Ub Uc Z C B' C' L.
  assert (X1 : D * dot_product pole b = B + G * dot_product b c).
  { transitivity (det3 pole b c * dot_product a b + B * dot_product b b + G * dot_product b c).
    - unfold D, B, G. destruct a as [[a1 a2] a3], b as [[b1 b2] b3], c as [[c1 c2] c3]. unfold det3, dot_product, cross_product, pole. ring.
    - rewrite Z. unfold unit in Ub. rewrite Ub. ring. }
  assert (X2 : D * dot_product pole c = B * dot_product b c + G).
  { transitivity (det3 pole b c * dot_product a c + B * dot_product b c + G * dot_product c c).
    - unfold D, B, G. destruct a as [[a1 a2] a3], b as [[b1 b2] b3], c as [[c1 c2] c3]. unfold det3, dot_product, cross_product, pole. ring.
    - rewrite Z. unfold unit in Uc. rewrite Uc. ring. }
  assert (X3 : D = B * dot_product pole b + G * dot_product pole c).
  { unfold D, B, G. rewrite <- (cramer_pole a b c), Z. ring. }
  set (t := dot_product b c) in *.
  assert (T : -1 <= t <= 1).
  { unfold t. unfold unit in Ub, Uc. destruct b as [[b1 b2] b3], c as [[c1 c2] c3]. unfold dot_product in *. clear - Ub Uc.
    pose proof (Rle_0_sqr (b1 + c1)). pose proof (Rle_0_sqr (b2 + c2)). pose proof (Rle_0_sqr (b3 + c3)).
    pose proof (Rle_0_sqr (b1 - c1)). pose proof (Rle_0_sqr (b2 - c2)). pose proof (Rle_0_sqr (b3 - c3)). unfold Rsqr in *. split; nra. }
  assert (X4 : D * D = B * B + G * G + 2 * (B * G * t)).
  { transitivity (B * (D * dot_product pole b) + G * (D * dot_product pole c)); [rewrite X3 at 1; ring|]. rewrite X1, X2. ring. }
  assert (0 < B * G) by (apply Rmult_lt_0_compat; assumption).
  assert (X5 : D * D <= (B + G) * (B + G)).
  { replace ((B + G) * (B + G)) with (D * D + 2 * (B * G * (1 - t))) by (rewrite X4; ring).
    assert (0 <= B * G * (1 - t)) by (apply Rmult_le_pos; lra). lra. }
  assert (X6 : 0 <= D + B + G) by nra.
  assert (X7 : D * zre pole b c = (1 + t) * (D + B + G)).
  { unfold zre. rewrite (dot_comm c pole). fold t.
    transitivity (D * (1 + t) + (D * dot_product pole b + D * dot_product pole c)); [ring|]. rewrite X1, X2. ring. }
  assert (0 <= (1 + t) * (D + B + G)) by (apply Rmult_le_pos; lra). nra.
Qed.

(** the sign of a determinant and of the angle *)
Definition signs (x t : R) : Prop :=
  (0 < x /\ ltb x 0 = false /\ ltb 0 x = true /\ 0 < t < PI) \/ (x = 0 /\ ltb x 0 = false /\ ltb 0 x = false /\ t = 0) \/
  (x < 0 /\ ltb x 0 = true /\ ltb 0 x = false /\ - PI < t < 0).
Lemma ltb_true x y : x < y -> ltb x y = true.
Proof. destruct (ltb_spec x y); [reflexivity|contradiction]. Qed.
Lemma ltb_false x y : y <= x -> ltb x y = false.
Proof. destruct (ltb_spec x y); [lra|reflexivity]. Qed.
Lemma arg_signs a b c : clear a b c -> signs (det3 a b c) (arg a b c).
Proof.
  intros H. unfold signs. destruct (arg_sign a b c H) as [[S T] | [[S T] | [S T]]].
  - left. rewrite (ltb_true 0 (det3 a b c)), (ltb_false (det3 a b c) 0) by lra. auto.
  - right; left. rewrite !ltb_false by lra. auto.
  - right; right. rewrite (ltb_true (det3 a b c) 0), (ltb_false 0 (det3 a b c)) by lra. auto.
Qed.

Lemma count A B C D x y z w k : signs A x -> signs B y -> signs C z -> signs D w ->
  (0 < A -> 0 < B -> 0 < C -> x + y + z < 2 * PI) -> (A < 0 -> B < 0 -> C < 0 -> - (2 * PI) < x + y + z) ->
  (C < 0 -> 0 < A -> 0 < B -> x + y < PI) -> (A < 0 -> 0 < B -> 0 < C -> y + z < PI) -> (B < 0 -> 0 < C -> 0 < A -> z + x < PI) ->
  (0 < C -> A < 0 -> B < 0 -> - PI < x + y) -> (0 < A -> B < 0 -> C < 0 -> - PI < y + z) -> (0 < B -> C < 0 -> A < 0 -> - PI < z + x) ->
  (A = 0 -> 0 < B -> 0 < C -> 0 <= D) -> (B = 0 -> 0 < C -> 0 < A -> 0 <= D) -> (C = 0 -> 0 < A -> 0 < B -> 0 <= D) ->
  (A = 0 -> B < 0 -> C < 0 -> D <= 0) -> (B = 0 -> C < 0 -> A < 0 -> D <= 0) -> (C = 0 -> A < 0 -> B < 0 -> D <= 0) ->
  w = z + x + y + IZR k * (2 * PI) -> k = side A B C D.
Proof.
  intros SA SB SC SD L3 R3 L2a L2b L2c R2a R2b R2c N1 N2 N3 M1 M2 M3 Q. pose proof PI_RGT_0 as P.
  assert (Q' : IZR k * (2 * PI) = w - (z + x + y)) by (clear - Q; lra). clear Q. unfold side.
  destruct SA as [(A1 & A2 & A3 & A4) | [(A1 & A2 & A3 & A4) | (A1 & A2 & A3 & A4)]]; rewrite A2, A3; clear A2 A3;
  destruct SB as [(B1 & B2 & B3 & B4) | [(B1 & B2 & B3 & B4) | (B1 & B2 & B3 & B4)]]; rewrite B2, B3; clear B2 B3;
  destruct SC as [(C1 & C2 & C3 & C4) | [(C1 & C2 & C3 & C4) | (C1 & C2 & C3 & C4)]]; rewrite C2, C3; clear C2 C3;
  try specialize (L3 A1 B1 C1); try specialize (R3 A1 B1 C1);
  try specialize (L2a C1 A1 B1); try specialize (L2b A1 B1 C1); try specialize (L2c B1 C1 A1);
  try specialize (R2a C1 A1 B1); try specialize (R2b A1 B1 C1); try specialize (R2c B1 C1 A1);
  try specialize (N1 A1 B1 C1); try specialize (N2 B1 C1 A1); try specialize (N3 C1 A1 B1);
  try specialize (M1 A1 B1 C1); try specialize (M2 B1 C1 A1); try specialize (M3 C1 A1 B1);
  repeat match goal with H : _ -> _ -> _ -> _ |- _ => clear H end;
  destruct SD as [(D1 & D2 & D3 & D4) | [(D1 & D2 & D3 & D4) | (D1 & D2 & D3 & D4)]]; rewrite D2, D3; clear D2 D3;
  cbn [andb]; apply multiple_is; rewrite Q'; lra.
Qed.

Theorem cocycle_pole a b c : unit a -> unit b -> unit c ->
  clear pole a b -> clear pole b c -> clear pole c a -> clear a b c ->
  arg a b c = arg pole a b + arg pole b c + arg pole c a + IZR (side (det3 pole b c) (det3 pole c a) (det3 pole a b) (det3 a b c)) * (2 * PI).
Proof.
  intros Ua Ub Uc C1 C2 C3 C4. destruct (cocycle_mod a b c Ua Ub Uc C1 C2 C3 C4) as (k & E). rewrite E.
  cut (k = side (det3 pole b c) (det3 pole c a) (det3 pole a b) (det3 a b c)); [intros ->; reflexivity|].
  pose proof (above a b Ua C1) as Pa. pose proof (above b c Ub C2) as Pb. pose proof (above c a Uc C3) as Pc.
  pose proof (clear_swap _ _ _ C1) as C1'. pose proof (clear_swap _ _ _ C2) as C2'. pose proof (clear_swap _ _ _ C3) as C3'.
  pose proof (det3_swap pole a b) as W1. pose proof (det3_swap pole b c) as W2. pose proof (det3_swap pole c a) as W3.
  pose proof (arg_swap pole a b C1) as V1. pose proof (arg_swap pole b c C2) as V2. pose proof (arg_swap pole c a C3) as V3.
  pose proof (det3_cycle a b c) as Y1. pose proof (det3_cycle b c a) as Y2.
  apply (count _ _ _ _ (arg pole b c) (arg pole c a) (arg pole a b) (arg a b c)); try (apply arg_signs; assumption).
  - intros. pose proof (three_left a b c Ua Ub Uc Pa Pb Pc ltac:(lra) ltac:(lra) ltac:(lra)). lra.
  - intros. pose proof (three_left a c b Ua Uc Ub Pa Pc Pb ltac:(lra) ltac:(lra) ltac:(lra)). lra.
  - intros. pose proof (two_left a b c Ua Ub Uc Pa Pb Pc ltac:(lra) ltac:(lra) ltac:(lra)). lra.
  - intros. pose proof (two_left b c a Ub Uc Ua Pb Pc Pa ltac:(lra) ltac:(lra) ltac:(lra)). lra.
  - intros. pose proof (two_left c a b Uc Ua Ub Pc Pa Pb ltac:(lra) ltac:(lra) ltac:(lra)). lra.
  - intros. pose proof (two_left b a c Ub Ua Uc Pb Pa Pc ltac:(lra) ltac:(lra) ltac:(lra)). lra.
  - intros. pose proof (two_left c b a Uc Ub Ua Pc Pb Pa ltac:(lra) ltac:(lra) ltac:(lra)). lra.
  - intros. pose proof (two_left a c b Ua Uc Ub Pa Pc Pb ltac:(lra) ltac:(lra) ltac:(lra)). lra.
  - intros H1 H2 H3. apply (no_antipode a b c Ub Uc); assumption.
  - intros H1 H2 H3. pose proof (no_antipode b c a Uc Ua H1 C3 H2 H3). lra.
  - intros H1 H2 H3. pose proof (no_antipode c a b Ua Ub H1 C1 H2 H3). lra.
  - intros H1 H2 H3. pose proof (no_antipode a c b Uc Ub) as X. pose proof (det3_swap a b c) as Y. assert (Z : det3 pole c b = 0) by lra. specialize (X Z C2' ltac:(lra) ltac:(lra)). lra.
  - intros H1 H2 H3. pose proof (no_antipode b a c Ua Uc) as X. pose proof (det3_swap b c a) as Y. assert (Z : det3 pole a c = 0) by lra. specialize (X Z C3' ltac:(lra) ltac:(lra)). lra.
  - intros H1 H2 H3. pose proof (no_antipode c b a Ub Ua) as X. pose proof (det3_swap c a b) as Y. assert (Z : det3 pole b a = 0) by lra. specialize (X Z C1' ltac:(lra) ltac:(lra)). lra.
  - lra.
Qed.

(** the same seen from any unit vector *)
Theorem cocycle n a b c : unit n -> unit a -> unit b -> unit c ->
  clear n a b -> clear n b c -> clear n c a -> clear a b c ->
  arg a b c = arg n a b + arg n b c + arg n c a + IZR (side (det3 n b c) (det3 n c a) (det3 n a b) (det3 a b c)) * (2 * PI).
Proof.
  intros Un Ua Ub Uc C1 C2 C3 C4. destruct (frame n Un) as (phi & Hd & Ht & Hn).
  assert (Z : forall u v w, zre (phi u) (phi v) (phi w) = zre u v w) by (intros; unfold zre; rewrite !Hd; reflexivity).
  assert (G : forall u v w, arg (phi u) (phi v) (phi w) = arg u v w) by (intros; unfold arg; rewrite Z, Ht; reflexivity).
  rewrite <- (G a b c), <- (G n a b), <- (G n b c), <- (G n c a), <- (Ht a b c), <- (Ht n a b), <- (Ht n b c), <- (Ht n c a). rewrite Hn. apply cocycle_pole; unfold unit, clear; rewrite <- ?Hn, ?Hd, ?Ht, ?Z; assumption.
Qed.
