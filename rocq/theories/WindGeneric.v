(** A ray that misses all the edges of a surface. *)
From Coq Require Import List ZArith Reals Lra Lia Psatz Bool Permutation.
From Verif Require Import Vec VecLemmas GeoModel InputSpec WindModel WindAngle WindCocycle WindSpec WindRay WindProofs.
Import ListNotations.
Open Scope R_scope.

Lemma eventually_nonzero x y z : ~ (x = 0 /\ y = 0 /\ z = 0) -> exists B, 1 <= B /\ forall s, B < s -> x + y * s + z * (s * s) <> 0.
Proof.
  intros N. pose proof (Rabs_pos x) as X. pose proof (Rabs_pos y) as Y.
  destruct (Req_dec z 0) as [->|Z].
  - destruct (Req_dec y 0) as [->|Ny].
    + exists 1. split; [lra|]. intros s _ E. apply N. lra.
    + exists (1 + Rabs x / Rabs y). assert (P : 0 < Rabs y) by (apply Rabs_pos_lt; exact Ny).
      assert (Q : 0 <= Rabs x / Rabs y) by (unfold Rdiv; apply Rmult_le_pos; [exact X|apply Rlt_le, Rinv_0_lt_compat; exact P]).
      split; [lra|]. intros s Hs E. assert (S : 0 < s) by lra.
      assert (A : Rabs x = Rabs y * s).
      { replace x with (- (y * s)) by lra. rewrite Rabs_Ropp, Rabs_mult, (Rabs_pos_eq s) by lra. reflexivity. }
      assert (B : Rabs x / Rabs y = s) by (rewrite A; field; lra). lra.
  - exists (1 + (Rabs x + Rabs y) / Rabs z). assert (P : 0 < Rabs z) by (apply Rabs_pos_lt; exact Z).
    assert (Q : 0 <= (Rabs x + Rabs y) / Rabs z) by (unfold Rdiv; apply Rmult_le_pos; [lra|apply Rlt_le, Rinv_0_lt_compat; exact P]).
    split; [lra|]. intros s Hs E. assert (S : 1 < s) by lra.
    assert (A : Rabs z * (s * s) <= (Rabs x + Rabs y) * s).
    { replace (Rabs z * (s * s)) with (Rabs (x + y * s)).
      - apply (Rle_trans _ (Rabs x + Rabs (y * s))); [apply Rabs_triang|]. rewrite Rabs_mult, (Rabs_pos_eq s) by lra. nra.
      - replace (x + y * s) with (- (z * (s * s))) by lra. rewrite Rabs_Ropp, Rabs_mult, (Rabs_pos_eq (s * s)) by nra. reflexivity. }
    assert (B : Rabs z * s <= Rabs x + Rabs y) by (apply (Rmult_le_reg_r s); lra).
    assert (C : s <= (Rabs x + Rabs y) / Rabs z).
    { apply (Rmult_le_reg_l (Rabs z)); [exact P|]. replace (Rabs z * ((Rabs x + Rabs y) / Rabs z)) with (Rabs x + Rabs y) by (field; lra). exact B. }
    lra.
Qed.

Definition curve (s : R) : vec3 := (1, s, s * s).

Lemma avoid_edge q a b : ~ on_edge q a b -> exists B, 1 <= B /\ forall s t, B < s -> 0 <= t -> ~ on_edge (ray_at q (curve s) t) a b.
Proof.
  intros Off.
  assert (Start : forall s, ray_at q (curve s) 0 = q) by (intros; destruct q as [[? ?] ?]; unfold ray_at, curve; apply vec_eq; ring).
  assert (Combo : forall s t, on_edge (ray_at q (curve s) t) a b -> exists u v, u + v = 1 /\ vscale t (curve s) = mix u (vsub a q) v (vsub b q) 0 (vsub a q)).
  { intros s t (u & v & w & _ & _ & _ & S & E). exists u, (v + w). split; [lra|]. clear Off Start. destruct q as [[q1 q2] q3], a as [[a1 a2] a3], b as [[b1 b2] b3].
    unfold ray_at, curve, mix, vsub, vscale in *. apply vec_inv in E. destruct E as (E1 & E2 & E3). assert (u = 1 - (v + w)) by lra. subst u. apply vec_eq.
    - transitivity (q1 + t * 1 - q1); [ring|rewrite E1; ring].
    - transitivity (q2 + t * s - q2); [ring|rewrite E2; ring].
    - transitivity (q3 + t * (s * s) - q3); [ring|rewrite E3; ring]. }
  set (a' := vsub a q) in *. set (b' := vsub b q) in *.
  destruct (cross_product a' b') as [[x y] z] eqn:EN.
  assert (Det : forall s, det3 (curve s) a' b' = x + y * s + z * (s * s)).
  { intros s. unfold det3. rewrite EN. unfold curve, dot_product. ring. }
  destruct (Req_dec (x * x + y * y + z * z) 0) as [Z|NZ].
  - (* the edge is in line with q *)
    assert (N0 : x = 0 /\ y = 0 /\ z = 0) by (apply squares3; lra). destruct N0 as (-> & -> & ->).
    assert (Na : ~ (fst (fst a') = 0 /\ snd (fst a') = 0 /\ snd a' = 0)).
    { intros (H1 & H2 & H3). apply Off. exists 1, 0, 0. split; [lra|]. split; [lra|]. split; [lra|]. split; [lra|].
      clear - H1 H2 H3. unfold a' in *. destruct q as [[q1 q2] q3], a as [[a1 a2] a3], b as [[b1 b2] b3]. unfold vsub, mix in *. cbn [fst snd] in *. apply vec_eq; lra. }
    destruct a' as [[a1 a2] a3]. destruct b' as [[b1 b2] b3]. cbn [fst snd] in Na.
    assert (L : exists B, 1 <= B /\ forall s, B < s -> cross_product (curve s) (a1, a2, a3) <> zero3).
    { destruct (Req_dec a1 0) as [A1|A1]; [destruct (Req_dec a2 0) as [A2|A2]|].
      - exists 1. split; [lra|]. intros s _ E. unfold cross_product, curve, zero3 in E. apply vec_inv in E. destruct E as (_ & E & _). apply Na. subst. lra.
      - exists 1. split; [lra|]. intros s _ E. unfold cross_product, curve, zero3 in E. apply vec_inv in E. destruct E as (_ & _ & E). apply A2. subst. lra.
      - destruct (eventually_nonzero a2 (- a1) 0) as (B & HB & H); [intros (_ & X & _); lra|]. exists B. split; [exact HB|]. intros s Hs E.
        unfold cross_product, curve, zero3 in E. apply vec_inv in E. destruct E as (_ & _ & E). apply (H s Hs). lra. }
    destruct L as (B & HB & L). exists B. split; [exact HB|]. intros s t Hs Ht Q.
    destruct (Combo s t Q) as (u & v & S & E). destruct (Req_dec t 0) as [T0|T0]; [rewrite T0, Start in Q; contradiction|].
    apply (L s Hs). unfold cross_product, zero3, vscale, mix, curve in *. apply vec_inv in EN. destruct EN as (N1 & N2 & N3). apply vec_inv in E. destruct E as (E1 & E2 & E3).
    apply vec_eq; apply (Rmult_eq_reg_l t); try exact T0.
    + transitivity ((t * s) * a3 - (t * (s * s)) * a2); [ring|]. rewrite E2, E3. transitivity (- v * (a2 * b3 - a3 * b2)); [ring|rewrite N1; ring].
    + transitivity ((t * (s * s)) * a1 - (t * 1) * a3); [ring|]. rewrite E1, E3. transitivity (- v * (a3 * b1 - a1 * b3)); [ring|rewrite N2; ring].
    + transitivity ((t * 1) * a2 - (t * s) * a1); [ring|]. rewrite E1, E2. transitivity (- v * (a1 * b2 - a2 * b1)); [ring|rewrite N3; ring].
  - destruct (eventually_nonzero x y z) as (B & HB & H); [intros (-> & -> & ->); apply NZ; ring|]. exists B. split; [exact HB|]. intros s t Hs Ht Q.
    destruct (Combo s t Q) as (u & v & S & E). destruct (Req_dec t 0) as [T0|T0]; [rewrite T0, Start in Q; contradiction|].
    apply (H s Hs). rewrite <- Det. apply (Rmult_eq_reg_l t); [|exact T0]. rewrite <- det3_scale1, E. clear.
    generalize a' b'. clear. intros [[a1 a2] a3] [[b1 b2] b3]. unfold det3, mix, dot_product, cross_product. ring.
Qed.

Lemma avoid_all q (E : list (vec3 * vec3)) : exists d, d <> zero3 /\
  forall a b t, In (a, b) E -> ~ on_edge q a b -> 0 <= t -> ~ on_edge (ray_at q d t) a b.
Proof.
  assert (G : exists B, 1 <= B /\ forall s a b t, B < s -> In (a, b) E -> ~ on_edge q a b -> 0 <= t -> ~ on_edge (ray_at q (curve s) t) a b).
  { induction E as [|[a b] E (B & HB & IH)].
    - exists 1. split; [lra|]. intros s a b t _ [].
    - assert (X : exists B', 1 <= B' /\ forall s t, B' < s -> ~ on_edge q a b -> 0 <= t -> ~ on_edge (ray_at q (curve s) t) a b).
      { destruct (Classical_Prop.classic (on_edge q a b)) as [Y|Y]; [exists 1; split; [lra|]; intros; contradiction|].
        destruct (avoid_edge q a b Y) as (B' & HB' & H). exists B'. split; [exact HB'|]. intros s t Hs _ Ht. apply H; assumption. }
      destruct X as (B' & HB' & H). exists (Rmax B B'). pose proof (Rmax_l B B'). pose proof (Rmax_r B B'). split; [lra|].
      intros s a0 b0 t Hs [K|K] Off Ht; [injection K as <- <-; apply H; try assumption; lra|apply (IH s); try assumption; lra]. }
  destruct G as (B & HB & G). exists (curve (B + 1)). split; [unfold curve, zero3; intros E0; apply vec_inv in E0; lra|].
  intros a b t Hin Off Ht. apply (G (B + 1)); try assumption. lra.
Qed.

(** every corner of a triangle of a division is a vertex of the face *)
Lemma divides_corner cdt vs Ts T i : divides cdt vs Ts -> In T Ts -> In i (corners T) -> In i vs.
Proof.
  intros D HT Hi. inversion D as [a b c|a b c e|a b c e|vs' Ts' L F]; subst.
  1-3: cbn in HT; repeat destruct HT as [<- | HT]; try destruct HT; cbn in *; intuition auto.
  assert (K : In i (concat (map corners Ts))) by (apply in_concat; exists (corners T); split; [apply in_map; exact HT|exact Hi]).
  clear - F K. induction F as [|x v l g E _ IH]; [destruct K|]. destruct K as [-> | K]; [eapply vget_In; exact E|auto].
Qed.
Lemma edge_corners T i j : In (i, j) (tri_edges T) -> In i (corners T) /\ In j (corners T).
Proof. destruct T as [[a b] c]. cbn. intros [E | [E | [E | []]]]; injection E as <- <-; auto. Qed.
Lemma edge_off coords q T i j : In (i, j) (tri_edges T) -> ~ in_triangle q (place coords T) -> ~ on_edge q (position coords i) (position coords j).
Proof.
  destruct T as [[a b] c]. cbn [tri_edges place]. intros H N Q. apply N. destruct Q as (u & v & w & U & V & W & S & E).
  destruct H as [H | [H | [H | []]]]; injection H as <- <-; rewrite E;
    destruct (position coords a) as [[a1 a2] a3], (position coords b) as [[b1 b2] b3], (position coords c) as [[c1 c2] c3].
  - exists u, (v + w), 0. repeat split; try lra. unfold mix. apply vec_eq; ring.
  - exists 0, u, (v + w). repeat split; try lra. unfold mix. apply vec_eq; ring.
  - exists (v + w), 0, u. repeat split; try lra. unfold mix. apply vec_eq; ring.
Qed.

Theorem generic_exists cdt coords fs q : off_surface cdt coords fs q -> exists d, generic_ray cdt coords fs q d.
Proof.
  intros Off. set (P := map (position coords) (concat fs)).
  destruct (avoid_all q (list_prod P P)) as (d & D & H). exists d. split; [exact D|].
  intros vs Ts T i j t Hv Dv HT He Ht. destruct (edge_corners T i j He) as [Ci Cj].
  apply H; try assumption.
  - apply in_prod; apply in_map, in_concat; exists vs; split; try assumption; eapply divides_corner; eassumption.
  - apply (edge_off coords q T i j He). apply (Off vs Ts T Hv Dv HT).
Qed.
