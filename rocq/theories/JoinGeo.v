(** C74: two triangles in general position have no intersection points or two. *)
From Coq Require Import List Reals Lra Lia Bool Ascii.
From Verif Require Import SplitModel PointsModel GeoModel GeoSpec GeoSeg GeoPlane GeoProj GeoPip GeoTri GeoPip3 GeoPipProps GeoProps PointsGeo JoinLine.
Import ListNotations.
Open Scope R_scope.

Ltac points := repeat match goal with x : ?T |- _ => first [constr_eq T vec3|constr_eq T (R * R * R)%type]; let x1 := fresh x in let x2 := fresh x in let x3 := fresh x in destruct x as [[x1 x2] x3] end.

Lemma weighted_unique (a b d : vec3) x y z x' y' z' : ~ on_a_line a b d -> x + y + z = 1 -> x' + y' + z' = 1 -> weighted a b d x y z = weighted a b d x' y' z' -> x = x' /\ y = y' /\ z = z'.
Proof.
  intros L S1 S2 E. assert (Z : z = z').
  { destruct (Req_dec z z') as [Z|Z]; [exact Z|]. exfalso. apply L. right. exists (- (y - y') / (z - z')). points. cbn in *. injection E as E1 E2 E3. replace x with (1 - y - z) in * by lra. replace x' with (1 - y' - z') in * by lra. f_equal; [f_equal|].
    - apply Rmult_eq_reg_r with (z - z'); [|lra]. field_simplify; [|lra]. lra.
    - apply Rmult_eq_reg_r with (z - z'); [|lra]. field_simplify; [|lra]. lra.
    - apply Rmult_eq_reg_r with (z - z'); [|lra]. field_simplify; [|lra]. lra. }
  subst z'. assert (Y : y = y').
  { destruct (Req_dec y y') as [Y|Y]; [exact Y|]. exfalso. apply L. left. points. cbn in *. injection E as E1 E2 E3. replace x with (1 - y - z) in * by lra. replace x' with (1 - y' - z) in * by lra. f_equal; [f_equal|]; apply Rmult_eq_reg_l with (y - y'); lra. }
  subst y'. split; [lra|auto].
Qed.
Lemma rotate_line (a b d : vec3) : on_a_line b d a -> on_a_line a b d.
Proof.
  intros [E|(t & E)]; [subst d; destruct (Classical_Prop.classic (a = b)) as [X|X]; [left; exact X|right; exists 1; points; cbn; f_equal; [f_equal|]; ring]|]. destruct (Req_dec t 0) as [Z|Z]; [left; subst t; rewrite E; points; cbn; f_equal; [f_equal|]; ring|].
  right. exists (1 - 1 / t). rewrite E. points. cbn. f_equal; [f_equal|]; field; exact Z.
Qed.
Lemma plane_weights (a b d p : vec3) : on_plane a b d p <-> exists x y z, x + y + z = 1 /\ p = weighted a b d x y z.
Proof.
  split.
  - intros (s & t & ->). exists (1 - s - t), s, t. split; [ring|]. points. cbn. f_equal; [f_equal|]; ring.
  - intros (x & y & z & S & ->). exists y, z. replace x with (1 - y - z) by lra. points. cbn. f_equal; [f_equal|]; ring.
Qed.
Lemma rotate_plane (a b d p : vec3) : on_plane b d a p <-> on_plane a b d p.
Proof. rewrite !plane_weights. split; intros (x & y & z & S & ->); [exists z, x, y|exists y, z, x]; (split; [lra|]); points; cbn; (f_equal; [f_equal|]); ring. Qed.
Lemma hit_off_plane (a b d q r : vec3) p : ~ on_a_line a b d -> triangle_test a b d q r (Hit p) -> ~ on_plane a b d q /\ ~ on_plane a b d r.
Proof.
  intros L (n & dc & c & code & point & PC & E & _ & RES). destruct (proj2 (C44_triangle a b d q r n c L) _ E) as (? & [= <-] & M). unfold test in RES. cbv zeta in RES.
  inversion M as [X Y Q|X Y Q|X Y Q|X Y Z Q|X Q]; subst code; cbn [Ascii.eqb Bool.eqb negb orb] in RES; try (destruct (existsb _ _); discriminate); try discriminate. auto.
Qed.

(** ** The weights of the points of a line in the plane of a triangle *)
Definition line (x0 x1 : vec3) (t : R) : vec3 := at3 x0 x1 t.
Lemma line_weights (a b d x0 x1 : vec3) : ~ on_a_line a b d -> on_plane a b d x0 -> on_plane a b d x1 -> x0 <> x1 ->
  exists A B : nat -> R, (forall t, line x0 x1 t = weighted a b d (w A B 2 t) (w A B 0 t) (w A B 1 t)) /\ (forall t, w A B 2 t + w A B 0 t + w A B 1 t = 1) /\
    (exists k, (k < 3)%nat /\ 0 < B k) /\ (exists k, (k < 3)%nat /\ B k < 0).
Proof.
  intros L P0 P1 D. apply plane_weights in P0, P1. destruct P0 as (x & y & z & S0 & E0), P1 as (x' & y' & z' & S1 & E1).
  exists (fun k => match k with O => y | S O => z | _ => x end), (fun k => match k with O => y' - y | S O => z' - z | _ => x' - x end).
  split; [intros t; unfold w, line; rewrite E0, E1; clear; points; cbn; f_equal; [f_equal|]; ring|]. split; [intros t; unfold w; replace x with (1 - y - z) by lra; replace x' with (1 - y' - z') by lra; ring|].
  assert (N : ~ (y' - y = 0 /\ z' - z = 0)) by (intros [Y Z]; apply D; rewrite E0, E1; replace y' with y by lra; replace z' with z by lra; replace x' with x by lra; reflexivity).
  destruct (Rtotal_order (y' - y) 0) as [Y|[Y|Y]], (Rtotal_order (z' - z) 0) as [Z|[Z|Z]], (Rtotal_order (x' - x) 0) as [X|[X|X]]; try (exfalso; lra);
    (split; [first [exists 0%nat; split; [lia|exact Y]|exists 1%nat; split; [lia|exact Z]|exists 2%nat; split; [lia|exact X]]|first [exists 0%nat; split; [lia|exact Y]|exists 1%nat; split; [lia|exact Z]|exists 2%nat; split; [lia|exact X]]]).
Qed.

Lemma edge_weights (o q r : vec3) t : at3 q r t = weighted o q r 0 (1 - t) t.
Proof. points. cbn. f_equal; [f_equal|]; ring. Qed.
Lemma at3_0 (q r : vec3) : at3 q r 0 = q.
Proof. points. cbn. f_equal; [f_equal|]; ring. Qed.
Lemma at3_1 (q r : vec3) : at3 q r 1 = r.
Proof. points. cbn. f_equal; [f_equal|]; ring. Qed.
Lemma plane_q (o q r : vec3) : on_plane o q r q.
Proof. apply plane_weights. exists 0, 1, 0. split; [ring|]. points. cbn. f_equal; [f_equal|]; ring. Qed.
Lemma plane_r (o q r : vec3) : on_plane o q r r.
Proof. apply plane_weights. exists 0, 0, 1. split; [ring|]. points. cbn. f_equal; [f_equal|]; ring. Qed.

(** ** An edge q r of the triangle o q r against the triangle a b d, where both have a line in common *)
Section Edge.
Variables a b d o q r x0 x1 : vec3.
Hypothesis L : ~ on_a_line a b d.
Hypothesis L' : ~ on_a_line o q r.
Hypothesis RG : regular_triangle a b d.
Hypothesis X01 : x0 <> x1.
Variables gx gy gz : R -> R.
Hypothesis G : forall t, line x0 x1 t = weighted a b d (gx t) (gy t) (gz t) /\ gx t + gy t + gz t = 1.
Variables Ao Bo Aq Bq Ar Br : R.
Notation fo t := (Ao + Bo * t).
Notation fq t := (Aq + Bq * t).
Notation fr t := (Ar + Br * t).
Hypothesis F : forall t, line x0 x1 t = weighted o q r (fo t) (fq t) (fr t) /\ fo t + fq t + fr t = 1.
Hypothesis C : forall x, on_plane a b d x -> on_plane o q r x -> exists t, x = line x0 x1 t.
Notation inT t := (0 <= gx t /\ 0 <= gy t /\ 0 <= gz t).
Notation strict t := (0 < gx t /\ 0 < gy t /\ 0 < gz t).
Notation inT' t := (0 <= fo t /\ 0 <= fq t /\ 0 <= fr t).
Lemma in_T t : inT t -> in_triangle a b d (line x0 x1 t).
Proof. intros (A & B & D). exists (gx t), (gy t), (gz t). destruct (G t) as [E S]. auto. Qed.
Lemma strict_T t : strictly_in_triangle a b d (line x0 x1 t) -> strict t.
Proof. intros (x & y & z & X & Y & Z & S & E). destruct (G t) as [E' S']. rewrite E' in E. destruct (weighted_unique a b d _ _ _ _ _ _ L S' S E) as (-> & -> & ->). auto. Qed.
Lemma q_r : q <> r.
Proof. intros ->. apply L'. apply rotate_line. left. reflexivity. Qed.
Lemma at_edge t : fo t = 0 -> line x0 x1 t = at3 q r (fr t).
Proof. intros Z. destruct (F t) as [E S]. rewrite E, (edge_weights o). rewrite Z. f_equal. lra. Qed.
Lemma on_T' t : on_plane o q r (line x0 x1 t).
Proof. apply plane_weights. destruct (F t) as [E S]. eauto. Qed.
Lemma on_T t : on_plane a b d (line x0 x1 t).
Proof. apply plane_weights. destruct (G t) as [E S]. eauto. Qed.
Lemma edge_point t u : at3 q r u = line x0 x1 t -> fo t = 0 /\ fr t = u.
Proof. intros E. rewrite (edge_weights o) in E. destruct (F t) as [E' S']. rewrite E' in E. destruct (weighted_unique o q r 0 (1 - u) u (fo t) (fq t) (fr t) L' ltac:(lra) S' E) as (A & B & D). auto. Qed.
Lemma not_in_plane : Bo <> 0 -> ~ (on_plane a b d q /\ on_plane a b d r).
Proof.
  intros B0 [Pq Pr]. pose proof (at3_0 q r) as E0. pose proof (at3_1 q r) as E1.
  pose proof (plane_q o q r) as Oq. pose proof (plane_r o q r) as Or.
  destruct (C q Pq Oq) as (s & Es), (C r Pr Or) as (t & Et). destruct (edge_point s 0 (eq_trans E0 Es)) as [Z1 _]. destruct (edge_point t 1 (eq_trans E1 Et)) as [Z2 _].
  assert (X : Bo * (s - t) = 0) by lra. apply Rmult_integral in X. destruct X as [X|X]; [contradiction|]. apply q_r. rewrite Es, Et. f_equal. lra.
Qed.
Lemma edge_result res : triangle_test a b d q r res -> res <> Violation ->
  (forall t, inT t -> inT' t -> fo t = 0 -> fq t = 0 \/ fr t = 0 -> False) /\
  (forall t, inT t -> inT' t -> fo t = 0 -> Bo <> 0 -> res = Hit (line x0 x1 t) /\ strict t) /\
  (forall p, res = Hit p -> exists t, p = line x0 x1 t /\ strict t /\ fo t = 0 /\ inT' t /\ Bo <> 0).
Proof.
  intros T NV. pose proof (proj2 (C73_triangle_partial a b d q r L RG) res T) as S.
  pose proof (at3_0 q r) as E0. pose proof (at3_1 q r) as E1.
  split; [|split].
  - intros t I I' Z ZZ. pose proof (in_T t I) as IT. rewrite (at_edge t Z) in IT. destruct (F t) as [_ S1]. assert (D : fr t = 0 \/ fr t = 1) by lra.
    assert (END : in_triangle a b d q \/ in_triangle a b d r) by (destruct D as [D|D]; rewrite D in IT; [rewrite E0 in IT|rewrite E1 in IT]; auto).
    destruct res as [| |p]; [|congruence|]; [destruct S as (S2 & S3 & _); tauto|]. destruct S as (_ & (u & U & ->) & S).
    assert (K : exists v, (v = 0 \/ v = 1) /\ at3 q r v = at3 q r u) by (destruct END as [END|END]; [exists 0|exists 1]; (split; [auto|]); apply S; try lra; [rewrite E0|rewrite E1]; exact END). destruct K as (v & V & K). rewrite !(edge_weights o) in K. destruct (weighted_unique o q r 0 (1 - v) v 0 (1 - u) u L' ltac:(lra) ltac:(lra) K) as (_ & _ & X). lra.
  - intros t I I' Z B0. pose proof (in_T t I) as IT. pose proof (at_edge t Z) as AE. rewrite AE in IT. destruct (F t) as [_ S1]. destruct res as [| |p]; [|congruence|].
    + exfalso. destruct S as (_ & _ & S). apply (S (not_in_plane B0) (fr t)); [lra|exact IT].
    + destruct S as (S & _ & U). specialize (U (fr t) ltac:(lra) IT). rewrite <- AE in U. rewrite <- U in S |- *. split; [reflexivity|]. apply strict_T, S.
  - intros p ->. destruct S as (S & (u & U & EP) & _). assert (P1 : on_plane a b d p) by (apply plane_weights; destruct S as (x & y & z & _ & _ & _ & S & E); eauto). assert (P2 : on_plane o q r p) by (apply plane_weights; exists 0, (1 - u), u; split; [lra|]; rewrite EP; apply edge_weights).
    destruct (C p P1 P2) as (t & Et). exists t. split; [exact Et|]. split; [apply strict_T; rewrite <- Et; exact S|]. destruct (edge_point t u (eq_trans (eq_sym EP) Et)) as [Z Zr]. split; [exact Z|]. destruct (F t) as [_ S1]. split; [lra|].
    intros B0. destruct (hit_off_plane a b d q r p L T) as [NQ _]. apply NQ. clear NQ.
    assert (F0 : line x0 x1 0 = at3 q r (fr 0)) by (apply at_edge; rewrite B0 in *; lra). assert (F1 : line x0 x1 1 = at3 q r (fr 1)) by (apply at_edge; rewrite B0 in *; lra).
    assert (BR : Br <> 0). { intros B1. apply X01. pose proof (at3_0 x0 x1) as Y0. pose proof (at3_1 x0 x1) as Y1. change (line x0 x1 0 = x0) in Y0. change (line x0 x1 1 = x1) in Y1. assert (Y2 : at3 q r (fr 0) = at3 q r (fr 1)) by (f_equal; rewrite B1; ring). exact (eq_trans (eq_sym Y0) (eq_trans F0 (eq_trans Y2 (eq_trans (eq_sym F1) Y1)))). }
    replace q with (line x0 x1 (t - u / Br)); [apply on_T|]. assert (FQ : line x0 x1 (t - u / Br) = at3 q r (fr (t - u / Br))) by (apply at_edge; rewrite B0 in *; lra). rewrite FQ. transitivity (at3 q r 0); [f_equal; rewrite <- Zr; field; exact BR|exact E0].
Qed.
End Edge.

(** ** The three edges of a triangle *)
Lemma Forall2_first {X Y} (P : X -> Y -> Prop) x l rs : Forall2 P (x :: l) rs -> exists r rs', rs = r :: rs' /\ P x r /\ Forall2 P l rs'.
Proof. intros H. inversion H; subst. eauto. Qed.
Definition result_at (k : nat) (rs : list result) : result := nth k rs Miss.
Lemma side_results (a b d a' b' d' x0 x1 : vec3) (A B C D : nat -> R) rs : ~ on_a_line a b d -> ~ on_a_line a' b' d' -> regular_triangle a b d -> x0 <> x1 ->
  (forall t, line x0 x1 t = weighted a' b' d' (w A B 2 t) (w A B 0 t) (w A B 1 t)) -> (forall t, w A B 2 t + w A B 0 t + w A B 1 t = 1) ->
  (forall t, line x0 x1 t = weighted a b d (w C D 2 t) (w C D 0 t) (w C D 1 t)) -> (forall t, w C D 2 t + w C D 0 t + w C D 1 t = 1) ->
  (forall x, on_plane a b d x -> on_plane a' b' d' x -> exists t, x = line x0 x1 t) ->
  Forall2 (fun e res => triangle_test a b d (fst e) (snd e) res) (edges_of [a'; b'; d']) rs -> ~ In Violation rs ->
  length rs = 3%nat /\ forall k, (k < 3)%nat ->
    (forall t m, (forall i, (i < 3)%nat -> 0 <= w C D i t) -> (forall i, (i < 3)%nat -> 0 <= w A B i t) -> (m < 3)%nat -> m <> k -> w A B k t = 0 -> w A B m t = 0 -> False) /\
    (forall t, (forall i, (i < 3)%nat -> 0 <= w C D i t) -> (forall i, (i < 3)%nat -> 0 <= w A B i t) -> w A B k t = 0 -> B k <> 0 -> result_at k rs = Hit (line x0 x1 t) /\ forall i, (i < 3)%nat -> 0 < w C D i t) /\
    (forall p, result_at k rs = Hit p -> exists t, p = line x0 x1 t /\ (forall i, (i < 3)%nat -> 0 < w C D i t) /\ w A B k t = 0 /\ (forall i, (i < 3)%nat -> 0 <= w A B i t) /\ B k <> 0).
Proof.
  intros L L' RG X01 F F1 G G1 C0 T NV. cbn [edges_of last removelast combine] in T.
  apply Forall2_first in T. destruct T as (r0 & rs0 & -> & T0 & T). apply Forall2_first in T. destruct T as (r1 & rs1 & -> & T1 & T). apply Forall2_first in T. destruct T as (r2 & rs2 & -> & T2 & T). inversion T. subst rs2. clear T. cbn [fst snd] in T0, T1, T2. split; [reflexivity|].
  assert (N0 : r0 <> Violation) by (intros ->; apply NV; left; reflexivity). assert (N1 : r1 <> Violation) by (intros ->; apply NV; right; left; reflexivity). assert (N2 : r2 <> Violation) by (intros ->; apply NV; right; right; left; reflexivity).
  assert (L1 : ~ on_a_line b' d' a') by (intros X; apply L', rotate_line, X). assert (L2 : ~ on_a_line d' a' b') by (intros X; apply L1, rotate_line, X).
  assert (GG : forall t, line x0 x1 t = weighted a b d (w C D 2 t) (w C D 0 t) (w C D 1 t) /\ w C D 2 t + w C D 0 t + w C D 1 t = 1) by auto.
  assert (I3 : forall f : nat -> Prop, (forall i, (i < 3)%nat -> f i) <-> f 2%nat /\ f 0%nat /\ f 1%nat) by (intros f; split; [intros H; repeat split; apply H; lia|intros (X & Y & Z) [|[|[|i]]] H; auto; lia]).
  assert (W0 : forall x y z, weighted a' b' d' x y z = weighted b' d' a' y z x) by (clear; intros; points; cbn; f_equal; [f_equal|]; ring).
  assert (W1 : forall x y z, weighted a' b' d' x y z = weighted d' a' b' z x y) by (clear; intros; points; cbn; f_equal; [f_equal|]; ring).
  assert (C1 : forall x, on_plane a b d x -> on_plane b' d' a' x -> exists t, x = line x0 x1 t) by (intros x P Q; apply C0; [exact P|exact (proj1 (rotate_plane a' b' d' x) Q)]).
  assert (C2 : forall x, on_plane a b d x -> on_plane d' a' b' x -> exists t, x = line x0 x1 t) by (intros x P Q; apply C1; [exact P|exact (proj1 (rotate_plane b' d' a' x) Q)]).
  pose proof (edge_result a b d b' d' a' x0 x1 L L1 RG X01 (w C D 2) (w C D 0) (w C D 1) GG (A 0%nat) (B 0%nat) (A 1%nat) (B 1%nat) (A 2%nat) (B 2%nat) ltac:(intros t; specialize (F t); specialize (F1 t); unfold w in F, F1; rewrite F, W0; split; [reflexivity|lra]) C1 r0 T0 N0) as E0.
  pose proof (edge_result a b d d' a' b' x0 x1 L L2 RG X01 (w C D 2) (w C D 0) (w C D 1) GG (A 1%nat) (B 1%nat) (A 2%nat) (B 2%nat) (A 0%nat) (B 0%nat) ltac:(intros t; specialize (F t); specialize (F1 t); unfold w in F, F1; rewrite F, W1; split; [reflexivity|lra]) C2 r1 T1 N1) as E1.
  pose proof (edge_result a b d a' b' d' x0 x1 L L' RG X01 (w C D 2) (w C D 0) (w C D 1) GG (A 2%nat) (B 2%nat) (A 0%nat) (B 0%nat) (A 1%nat) (B 1%nat) ltac:(intros t; specialize (F t); specialize (F1 t); unfold w in F, F1; rewrite F; split; [reflexivity|lra]) C0 r2 T2 N2) as E2.
  assert (FIN : forall k k1 k2 res, (k = 0 /\ k1 = 1 /\ k2 = 2 \/ k = 1 /\ k1 = 2 /\ k2 = 0 \/ k = 2 /\ k1 = 0 /\ k2 = 1)%nat ->
    ((forall t, 0 <= w C D 2 t /\ 0 <= w C D 0 t /\ 0 <= w C D 1 t -> 0 <= w A B k t /\ 0 <= w A B k1 t /\ 0 <= w A B k2 t -> w A B k t = 0 -> w A B k1 t = 0 \/ w A B k2 t = 0 -> False) /\
     (forall t, 0 <= w C D 2 t /\ 0 <= w C D 0 t /\ 0 <= w C D 1 t -> 0 <= w A B k t /\ 0 <= w A B k1 t /\ 0 <= w A B k2 t -> w A B k t = 0 -> B k <> 0 -> res = Hit (line x0 x1 t) /\ 0 < w C D 2 t /\ 0 < w C D 0 t /\ 0 < w C D 1 t) /\
     (forall p, res = Hit p -> exists t, p = line x0 x1 t /\ (0 < w C D 2 t /\ 0 < w C D 0 t /\ 0 < w C D 1 t) /\ w A B k t = 0 /\ (0 <= w A B k t /\ 0 <= w A B k1 t /\ 0 <= w A B k2 t) /\ B k <> 0)) ->
    (forall t m, (forall i, (i < 3)%nat -> 0 <= w C D i t) -> (forall i, (i < 3)%nat -> 0 <= w A B i t) -> (m < 3)%nat -> m <> k -> w A B k t = 0 -> w A B m t = 0 -> False) /\
    (forall t, (forall i, (i < 3)%nat -> 0 <= w C D i t) -> (forall i, (i < 3)%nat -> 0 <= w A B i t) -> w A B k t = 0 -> B k <> 0 -> res = Hit (line x0 x1 t) /\ forall i, (i < 3)%nat -> 0 < w C D i t) /\
    (forall p, res = Hit p -> exists t, p = line x0 x1 t /\ (forall i, (i < 3)%nat -> 0 < w C D i t) /\ w A B k t = 0 /\ (forall i, (i < 3)%nat -> 0 <= w A B i t) /\ B k <> 0)).
  { intros k k1 k2 res K (Q1 & Q2 & Q3). assert (J3 : forall f : nat -> Prop, (forall i, (i < 3)%nat -> f i) <-> f k /\ f k1 /\ f k2) by (intros f; rewrite I3; destruct K as [(-> & -> & ->)|[(-> & -> & ->)|(-> & -> & ->)]]; tauto).
    split; [|split].
    - intros t m P1 P2 M MK Z ZM. apply (Q1 t); [apply I3 in P1; exact P1|apply J3 in P2; exact P2|exact Z|]. assert (m = k1 \/ m = k2) as [<-|<-] by lia; auto.
    - intros t P1 P2 Z BK. destruct (Q2 t) as [X Y]; [apply I3 in P1; exact P1|apply J3 in P2; exact P2|exact Z|exact BK|]. split; [exact X|]. apply I3. exact Y.
    - intros p E. destruct (Q3 p E) as (t & X1 & X2 & X3 & X4 & X5). exists t. split; [exact X1|]. split; [apply I3; exact X2|]. split; [exact X3|]. split; [apply J3; exact X4|exact X5]. }
  intros k K. destruct k as [|[|[|k]]]; [| | |lia]; unfold result_at; cbn [nth].
  - apply (FIN 0%nat 1%nat 2%nat r0); [lia|exact E0].
  - apply (FIN 1%nat 2%nat 0%nat r1); [lia|exact E1].
  - apply (FIN 2%nat 0%nat 1%nat r2); [lia|exact E2].
Qed.

(** ** The common line *)
Lemma common_line (a b d a' b' d' x0 : vec3) : ~ on_a_line a b d -> ~ on_a_line a' b' d' -> ~ (on_plane a b d a' /\ on_plane a b d b' /\ on_plane a b d d') -> on_plane a b d x0 -> on_plane a' b' d' x0 ->
  exists x1, x0 <> x1 /\ on_plane a b d x1 /\ on_plane a' b' d' x1 /\ forall x, on_plane a b d x -> on_plane a' b' d' x -> exists t, x = line x0 x1 t.
Proof.
  intros L L' NP P P'. set (n := cross_product (vsub b a) (vsub d a)). set (n' := cross_product (vsub b' a') (vsub d' a')).
  assert (N : n <> (0, 0, 0)) by (apply C63_triangle, L). assert (N' : n' <> (0, 0, 0)) by (apply C63_triangle, L').
  assert (PL : forall p, on_plane a b d p <-> dot3 n p = dot3 n a). { intros p. apply plane_of_three; auto; unfold n; clear; points; cbn; ring. }
  assert (PL' : forall p, on_plane a' b' d' p <-> dot3 n' p = dot3 n' a'). { intros p. apply plane_of_three; auto; unfold n'; clear; points; cbn; ring. }
  rewrite !PL in NP. apply PL in P. apply PL' in P'.
  assert (V : dot3 n' b' = dot3 n' a' /\ dot3 n' d' = dot3 n' a') by (unfold n'; clear; split; points; cbn; ring). destruct V as [Vb Vd].
  set (c := cross_product n n').
  assert (NC : c <> (0, 0, 0)).
  { intros E. apply NP. clear NP PL PL'. unfold c in E. clear c. clearbody n n'.
    assert (K : exists k, forall x : vec3, dot3 n x = k * dot3 n' x).
    { destruct n as [[n1 n2] n3], n' as [[m1 m2] m3]. cbn in E. injection E as E1 E2 E3. destruct (Req_dec m1 0) as [Z1|Z1]; [destruct (Req_dec m2 0) as [Z2|Z2]; [destruct (Req_dec m3 0) as [Z3|Z3]; [exfalso; apply N'; subst; reflexivity|]|]|].
      - exists (n3 / m3). intros [[x y] z]. cbn. subst m1 m2. assert (n1 * m3 = 0) by lra. assert (n2 * m3 = 0) by lra. apply Rmult_integral in H, H0. assert (n1 = 0) by tauto. assert (n2 = 0) by tauto. subst. field. exact Z3.
      - exists (n2 / m2). intros [[x y] z]. cbn. assert (X3 : n3 = n2 * m3 / m2) by (apply Rmult_eq_reg_r with m2; [field_simplify; lra|exact Z2]). assert (X1 : n1 = n2 * m1 / m2) by (apply Rmult_eq_reg_r with m2; [field_simplify; lra|exact Z2]). rewrite X3, X1. field. exact Z2.
      - exists (n1 / m1). intros [[x y] z]. cbn. assert (X3 : n3 = n1 * m3 / m1) by (apply Rmult_eq_reg_r with m1; [field_simplify; lra|exact Z1]). assert (X2 : n2 = n1 * m2 / m1) by (apply Rmult_eq_reg_r with m1; [field_simplify; lra|exact Z1]). rewrite X3, X2. field. exact Z1. }
    destruct K as (k & K). rewrite <- P. rewrite !K, P', Vb, Vd. auto. }
  exists (vadd x0 c). assert (OC : dot3 n c = 0 /\ dot3 n' c = 0) by (unfold c; clear; clearbody n n'; split; points; cbn; ring). destruct OC as [O1 O2].
  assert (DA : forall m x y : vec3, dot3 m (vadd x y) = dot3 m x + dot3 m y) by (clear; intros; points; cbn; ring).
  split; [|split; [apply PL; rewrite DA, O1; lra|split; [apply PL'; rewrite DA, O2; lra|]]].
  - intros E. apply NC. clear - E. clearbody c. points. cbn in E. injection E as E1 E2 E3. f_equal; [f_equal|]; lra.
  - intros x Q Q'. apply PL in Q. apply PL' in Q'. set (v := vsub x x0).
    assert (V1 : dot3 n v = 0) by (assert (X : dot3 n v = dot3 n x - dot3 n x0) by (unfold v; clear; clearbody n; points; cbn; ring); lra).
    assert (V2 : dot3 n' v = 0) by (assert (X : dot3 n' v = dot3 n' x - dot3 n' x0) by (unfold v; clear; clearbody n'; points; cbn; ring); lra).
    assert (CC : 0 < dot3 c c). { clear - NC. clearbody c. destruct c as [[c1 c2] c3]. cbn. assert (Z : ~ (c1 = 0 /\ c2 = 0 /\ c3 = 0)) by (intros (-> & -> & ->); apply NC; reflexivity). destruct (Req_dec c1 0) as [Z1|Z1]; [destruct (Req_dec c2 0) as [Z2|Z2]; [destruct (Req_dec c3 0) as [Z3|Z3]; [tauto|]|]|]; nra. }
    exists (dot3 v c / dot3 c c).
    assert (KEY : cross_product v c = (0, 0, 0)). { assert (X : cross_product v c = vsub (let '(x, y, z) := n in (dot3 n' v * x, dot3 n' v * y, dot3 n' v * z)) (let '(x, y, z) := n' in (dot3 n v * x, dot3 n v * y, dot3 n v * z))) by (unfold c; clear; clearbody n n' v; points; cbn; f_equal; [f_equal|]; ring). rewrite X, V1, V2. clear. clearbody n n'. points. cbn. f_equal; [f_equal|]; ring. }
    assert (VV : v = let '(x, y, z) := c in (dot3 v c / dot3 c c * x, dot3 v c / dot3 c c * y, dot3 v c / dot3 c c * z)).
    { clear - KEY CC. clearbody v c. destruct v as [[v1 v2] v3], c as [[c1 c2] c3]. cbn in *. injection KEY as K1 K2 K3. set (S := c1 * c1 + c2 * c2 + c3 * c3) in *. set (D := v1 * c1 + v2 * c2 + v3 * c3).
      assert (Y1 : v1 * S = D * c1) by (transitivity (D * c1 + c2 * (v1 * c2 - v2 * c1) - c3 * (v3 * c1 - v1 * c3)); [unfold S, D; ring|rewrite K2, K3; ring]).
      assert (Y2 : v2 * S = D * c2) by (transitivity (D * c2 + c3 * (v2 * c3 - v3 * c2) - c1 * (v1 * c2 - v2 * c1)); [unfold S, D; ring|rewrite K1, K3; ring]).
      assert (Y3 : v3 * S = D * c3) by (transitivity (D * c3 + c1 * (v3 * c1 - v1 * c3) - c2 * (v2 * c3 - v3 * c2)); [unfold S, D; ring|rewrite K1, K2; ring]).
      clearbody S D. f_equal; [f_equal|]; (apply Rmult_eq_reg_r with S; [|lra]); [rewrite Y1|rewrite Y2|rewrite Y3]; field; lra. }
    unfold line. assert (XX : x = vadd x0 v) by (unfold v; clear; points; cbn; f_equal; [f_equal|]; ring). rewrite XX. rewrite VV at 1. generalize (dot3 v c / dot3 c c). clear. clearbody c. intros k. points. cbn. f_equal; [f_equal|]; ring.
Qed.

(** ** The hits among six results *)
Definition hits (rs : list result) : list vec3 := flat_map (fun res => match res with Hit p => [p] | _ => [] end) rs.
Lemma two_hits (r0 r1 r2 r3 r4 r5 : result) (i j : nat) (P Q : vec3) : i <> j -> (i < 6)%nat -> (j < 6)%nat ->
  (forall k, (k < 6)%nat -> match result_at k [r0; r1; r2; r3; r4; r5] with Hit p => k = i /\ p = P \/ k = j /\ p = Q | Miss => k <> i /\ k <> j | Violation => False end) ->
  hits [r0; r1; r2; r3; r4; r5] = [P; Q] \/ hits [r0; r1; r2; r3; r4; r5] = [Q; P].
Proof.
  intros IJ LI LJ H. unfold result_at in H.
  pose proof (H 0%nat ltac:(lia)) as H0. pose proof (H 1%nat ltac:(lia)) as H1. pose proof (H 2%nat ltac:(lia)) as H2. pose proof (H 3%nat ltac:(lia)) as H3. pose proof (H 4%nat ltac:(lia)) as H4. pose proof (H 5%nat ltac:(lia)) as H5. clear H. cbn [nth] in *.
  assert (CI : (i = 0 \/ i = 1 \/ i = 2 \/ i = 3 \/ i = 4 \/ i = 5)%nat) by lia. assert (CJ : (j = 0 \/ j = 1 \/ j = 2 \/ j = 3 \/ j = 4 \/ j = 5)%nat) by lia. clear LI LJ.
  assert (ONE : forall r (k : nat), match r with Hit p => k = i /\ p = P \/ k = j /\ p = Q | Miss => k <> i /\ k <> j | Violation => False end -> r = if Nat.eqb k i then Hit P else if Nat.eqb k j then Hit Q else Miss).
  { intros [| |p] k X; destruct (Nat.eqb_spec k i), (Nat.eqb_spec k j); try tauto; destruct X as [[X1 X2]|[X1 X2]]; try congruence. }
  apply ONE in H0, H1, H2, H3, H4, H5. clear ONE. rewrite H0, H1, H2, H3, H4, H5. clear H0 H1 H2 H3 H4 H5.
  destruct CI as [-> |[-> |[-> |[-> |[-> | ->]]]]], CJ as [-> |[-> |[-> |[-> |[-> | ->]]]]]; try congruence; cbn; auto.
Qed.

(** Two triangles of different planes in general position: either they do not meet and there is no hit, or there are two hits among the six tests of the edges of each against the other, and what the triangles have in common is the line between
    the two points; its middle is inside both. *)
Theorem C74_two_points : forall a b d a' b' d' : vec3, ~ on_a_line a b d -> ~ on_a_line a' b' d' -> regular_triangle a b d -> regular_triangle a' b' d' ->
  ~ (on_plane a b d a' /\ on_plane a b d b' /\ on_plane a b d d') ->
  forall rs rs', Forall2 (fun e res => triangle_test a b d (fst e) (snd e) res) (edges_of [a'; b'; d']) rs -> Forall2 (fun e res => triangle_test a' b' d' (fst e) (snd e) res) (edges_of [a; b; d]) rs' ->
  ~ In Violation (rs ++ rs') ->
  (hits (rs ++ rs') = [] /\ forall x, ~ (in_triangle a b d x /\ in_triangle a' b' d' x)) \/
  exists p q, hits (rs ++ rs') = [p; q] /\ p <> q /\ (forall x, in_triangle a b d x /\ in_triangle a' b' d' x <-> exists t, 0 <= t <= 1 /\ x = at3 p q t) /\
    strictly_in_triangle a b d (at3 p q (1 / 2)) /\ strictly_in_triangle a' b' d' (at3 p q (1 / 2)).
Proof.
  intros a b d a' b' d' L L' RG RG' NP rs rs' T T' NV.
  assert (NV1 : ~ In Violation rs) by (intros X; apply NV, in_app_iff; auto). assert (NV2 : ~ In Violation rs') by (intros X; apply NV, in_app_iff; auto).
  destruct (Classical_Prop.classic (exists x, in_triangle a b d x /\ in_triangle a' b' d' x)) as [(x0 & I0 & I0')|NX].
  2:{ left. split; [|intros x X; apply NX; eauto].
    assert (EDGE : forall (u v z q r : vec3) t, In (q, r) (edges_of [u; v; z]) -> 0 < t < 1 -> in_triangle u v z (at3 q r t)).
    { intros u v z q r t I U. apply boundary_in. exists (q, r). split; [exact I|]. exists t. split; [lra|reflexivity]. }
    assert (G : forall (u v z u' v' z' : vec3) l rs, ~ on_a_line u v z -> regular_triangle u v z -> (forall e, In e l -> In e (edges_of [u'; v'; z'])) -> Forall2 (fun e res => triangle_test u v z (fst e) (snd e) res) l rs -> ~ In Violation rs -> (forall x, ~ (in_triangle u v z x /\ in_triangle u' v' z' x)) -> hits rs = []).
    { intros u v z u' v' z' l rs0 Lu Ru IN F NVu NXu. induction F as [|[q r] res l rs0 F1 F IH]; [reflexivity|]. cbn [hits flat_map]. destruct res as [| |p]; [apply IH; [intros; apply IN; right; assumption|intros X; apply NVu; right; exact X]|exfalso; apply NVu; left; reflexivity|].
      exfalso. cbn [fst snd] in F1. destruct (proj2 (C73_triangle_partial u v z q r Lu Ru) _ F1) as ((x & y & w0 & X & Y & Z & S & E) & (t & U & Et) & _). apply (NXu p). split; [exists x, y, w0; repeat (split; [lra|]); exact E|]. rewrite Et. apply EDGE; [apply IN; left; reflexivity|exact U]. }
    unfold hits. rewrite flat_map_app. fold (hits rs) (hits rs'). rewrite (G a b d a' b' d' _ rs L RG (fun e H => H) T NV1), (G a' b' d' a b d _ rs' L' RG' (fun e H => H) T' NV2); [reflexivity|intros x [X Y]; apply NX; eauto|intros x [X Y]; apply NX; eauto]. }
  right.
  assert (PT : forall (u v z x : vec3), in_triangle u v z x -> on_plane u v z x) by (intros u v z x (x1 & x2 & x3 & _ & _ & _ & S & E); apply plane_weights; eauto).
  destruct (common_line a b d a' b' d' x0 L L' NP (PT _ _ _ _ I0) (PT _ _ _ _ I0')) as (x1 & X01 & P1 & P1' & CL).
  destruct (line_weights a' b' d' x0 x1 L' (PT _ _ _ _ I0') P1' X01) as (A & B & F & F1 & UP & DOWN). destruct (line_weights a b d x0 x1 L (PT _ _ _ _ I0) P1 X01) as (C & D & G & G1 & _ & _).
  destruct (side_results a b d a' b' d' x0 x1 A B C D rs L L' RG X01 F F1 G G1 CL T NV1) as [LR SR].
  destruct (side_results a' b' d' a b d x0 x1 C D A B rs' L' L RG' X01 G G1 F F1 (fun x P Q => CL x Q P) T' NV2) as [LR' SR'].
  set (AA := fun k => if Nat.ltb k 3 then A k else C (k - 3)%nat). set (BB := fun k => if Nat.ltb k 3 then B k else D (k - 3)%nat).
  assert (WL : forall k t, (k < 3)%nat -> w AA BB k t = w A B k t) by (intros k t K; unfold w, AA, BB; replace (Nat.ltb k 3) with true by (symmetry; apply Nat.ltb_lt; exact K); reflexivity).
  assert (WH : forall k t, w AA BB (3 + k) t = w C D k t) by (intros k t; unfold w, AA, BB; replace (Nat.ltb (3 + k) 3) with false by (symmetry; apply Nat.ltb_ge; lia); replace (3 + k - 3)%nat with k by lia; reflexivity).
  assert (BH : forall k, BB (3 + k)%nat = D k) by (intros k; unfold BB; replace (Nat.ltb (3 + k) 3) with false by (symmetry; apply Nat.ltb_ge; lia); replace (3 + k - 3)%nat with k by lia; reflexivity).
  assert (BLo : forall k, (k < 3)%nat -> BB k = B k) by (intros k K; unfold BB; replace (Nat.ltb k 3) with true by (symmetry; apply Nat.ltb_lt; exact K); reflexivity).
  assert (ALL : forall t, all AA BB t <-> (forall i, (i < 3)%nat -> 0 <= w A B i t) /\ (forall i, (i < 3)%nat -> 0 <= w C D i t)).
  { intros t. split; [intros H; split; intros i K; [rewrite <- WL by exact K; apply H; lia|rewrite <- WH; apply H; lia]|]. intros [H1 H2] k K. destruct (Nat.lt_ge_cases k 3) as [K3|K3]; [rewrite WL by exact K3; apply H1, K3|]. replace k with (3 + (k - 3))%nat by lia. rewrite WH. apply H2. lia. }
  assert (IN' : forall t, in_triangle a' b' d' (line x0 x1 t) <-> forall i, (i < 3)%nat -> 0 <= w A B i t).
  { intros t. split; [|intros H; exists (w A B 2 t), (w A B 0 t), (w A B 1 t); do 3 (split; [apply H; lia|]); split; [apply F1|apply F]]. intros (x & y & z & X & Y & Z & S & E). rewrite F in E. destruct (weighted_unique a' b' d' _ _ _ _ _ _ L' (F1 t) S E) as (E1 & E2 & E3). intros [|[|[|i]]] K; try lia; lra. }
  assert (IN : forall t, in_triangle a b d (line x0 x1 t) <-> forall i, (i < 3)%nat -> 0 <= w C D i t).
  { intros t. split; [|intros H; exists (w C D 2 t), (w C D 0 t), (w C D 1 t); do 3 (split; [apply H; lia|]); split; [apply G1|apply G]]. intros (x & y & z & X & Y & Z & S & E). rewrite G in E. destruct (weighted_unique a b d _ _ _ _ _ _ L (G1 t) S E) as (E1 & E2 & E3). intros [|[|[|i]]] K; try lia; lra. }
  assert (BOTH : forall x, in_triangle a b d x /\ in_triangle a' b' d' x <-> exists t, all AA BB t /\ x = line x0 x1 t).
  { intros x. split; [intros [X X']; destruct (CL x (PT _ _ _ _ X) (PT _ _ _ _ X')) as (t & ->); exists t; split; [|reflexivity]; apply ALL; split; [apply IN', X'|apply IN, X]|]. intros (t & X & ->). apply ALL in X. split; [apply IN, X|apply IN', X]. }
  assert (Z0 : line x0 x1 0 = x0) by apply at3_0.
  destruct (line_ends AA BB) as (s & t & i & j & ST & IJ & LI & LJ & Zi & Zj & SEG & Us & Ut & ONLY & Bi & Bj).
  - apply ALL. split; [apply IN'; rewrite Z0; exact I0'|apply IN; rewrite Z0; exact I0].
  - destruct UP as (k & K & P). exists k. split; [lia|]. rewrite BLo; assumption.
  - destruct DOWN as (k & K & P). exists k. split; [lia|]. rewrite BLo; assumption.
  - intros t k m H K M KM SD Zk Zm. apply ALL in H. destruct H as [H1 H2]. unfold side in SD. destruct (Nat.ltb_spec k 3) as [K3|K3], (Nat.ltb_spec m 3) as [M3|M3]; try discriminate.
    + rewrite WL in Zk, Zm by assumption. destruct (SR k K3) as (S1 & _ & _). apply (S1 t m H2 H1 M3 (not_eq_sym KM) Zk Zm).
    + replace k with (3 + (k - 3))%nat in Zk by lia. replace m with (3 + (m - 3))%nat in Zm by lia. rewrite WH in Zk, Zm. destruct (SR' (k - 3)%nat ltac:(lia)) as (S1 & _ & _). apply (S1 t (m - 3)%nat H1 H2); auto; lia.
  - intros t k m H K M SD Zk Zm Bk. apply ALL in H. destruct H as [H1 H2]. unfold side in SD. destruct (Nat.ltb_spec k 3) as [K3|K3], (Nat.ltb_spec m 3) as [M3|M3]; try congruence.
    + replace m with (3 + (m - 3))%nat in Zm by lia. rewrite WH in Zm. rewrite WL in Zk by exact K3. rewrite BLo in Bk by exact K3. destruct (SR k K3) as (_ & S2 & _). destruct (S2 t H2 H1 Zk Bk) as [_ S3]. specialize (S3 (m - 3)%nat ltac:(lia)). lra.
    + replace k with (3 + (k - 3))%nat in Zk, Bk by lia. rewrite WH in Zk. rewrite BH in Bk. rewrite WL in Zm by exact M3. destruct (SR' (k - 3)%nat ltac:(lia)) as (_ & S2 & _). destruct (S2 t H1 H2 Zk Bk) as [_ S3]. specialize (S3 m M3). lra.
  - assert (AS : all AA BB s) by (apply SEG; lra). assert (AT : all AA BB t) by (apply SEG; lra).
    assert (HITS : hits (rs ++ rs') = [line x0 x1 s; line x0 x1 t] \/ hits (rs ++ rs') = [line x0 x1 t; line x0 x1 s]).
    { assert (RL : forall k, (k < 3)%nat -> result_at k (rs ++ rs') = result_at k rs) by (intros k K; unfold result_at; apply app_nth1; lia). assert (RH : forall k, result_at (3 + k) (rs ++ rs') = result_at k rs') by (intros k; unfold result_at; rewrite app_nth2 by lia; f_equal; lia).
      assert (CLAIM : forall k, (k < 6)%nat -> match result_at k (rs ++ rs') with Hit p => k = i /\ p = line x0 x1 s \/ k = j /\ p = line x0 x1 t | Miss => k <> i /\ k <> j | Violation => False end).
      { assert (HIT : forall k u, (k < 6)%nat -> all AA BB u -> w AA BB k u = 0 -> BB k <> 0 -> result_at k (rs ++ rs') = Hit (line x0 x1 u)).
        { intros k u K H Z NB. apply ALL in H. destruct H as [H1 H2]. destruct (Nat.lt_ge_cases k 3) as [K3|K3].
          - rewrite RL by exact K3. rewrite WL in Z by exact K3. rewrite BLo in NB by exact K3. destruct (SR k K3) as (_ & S2 & _). apply (S2 u H2 H1 Z NB).
          - replace k with (3 + (k - 3))%nat in Z, NB |- * by lia. rewrite RH. rewrite WH in Z. rewrite BH in NB. destruct (SR' (k - 3)%nat ltac:(lia)) as (_ & S2 & _). apply (S2 u H1 H2 Z NB). }
        intros k K. destruct (result_at k (rs ++ rs')) as [| |p] eqn:R.
        - split; intros ->; [rewrite (HIT i s) in R by assumption|rewrite (HIT j t) in R by assumption]; discriminate.
        - apply NV. rewrite <- R. unfold result_at. apply nth_In. rewrite app_length. lia.
        - assert (X : exists u, p = line x0 x1 u /\ all AA BB u /\ w AA BB k u = 0 /\ BB k <> 0).
          { destruct (Nat.lt_ge_cases k 3) as [K3|K3].
            - rewrite RL in R by exact K3. destruct (SR k K3) as (_ & _ & S3). destruct (S3 p R) as (u & E & X1 & X2 & X3 & X4). exists u. split; [exact E|]. split; [apply ALL; split; [exact X3|intros m M; apply Rlt_le, X1, M]|]. rewrite WL, BLo by exact K3. auto.
            - replace k with (3 + (k - 3))%nat in R |- * by lia. rewrite RH in R. destruct (SR' (k - 3)%nat ltac:(lia)) as (_ & _ & S3). destruct (S3 p R) as (u & E & X1 & X2 & X3 & X4). exists u. split; [exact E|]. split; [apply ALL; split; [intros m M; apply Rlt_le, X1, M|exact X3]|]. rewrite WH, BH. auto. }
          destruct X as (u & -> & H & Z & NB). destruct (ONLY k u K H Z NB) as [[-> ->]|[-> ->]]; auto. }
      destruct rs as [|r0 [|r1 [|r2 [|]]]]; try discriminate LR. destruct rs' as [|r3 [|r4 [|r5 [|]]]]; try discriminate LR'. exact (two_hits r0 r1 r2 r3 r4 r5 i j _ _ IJ LI LJ CLAIM). }
    assert (INJ : line x0 x1 s <> line x0 x1 t). { intros E. rewrite F, (F t) in E. destruct (weighted_unique a' b' d' _ _ _ _ _ _ L' (F1 s) (F1 t) E) as (E1 & E2 & E3). destruct UP as (k & K & P). assert (X : w A B k s = w A B k t) by (destruct k as [|[|[|k]]]; auto; lia). unfold w in X. assert (B k * (t - s) = 0) by lra. apply Rmult_integral in H. lra. }
    assert (AT3 : forall u, at3 (line x0 x1 s) (line x0 x1 t) u = line x0 x1 (s + u * (t - s))) by (intros u; unfold line; clear; points; cbn; f_equal; [f_equal|]; ring).
    assert (AT3' : forall u, at3 (line x0 x1 t) (line x0 x1 s) u = line x0 x1 (t + u * (s - t))) by (intros u; unfold line; clear; points; cbn; f_equal; [f_equal|]; ring).
    assert (MID : forall k, (k < 6)%nat -> 0 < w AA BB k ((s + t) / 2)).
    { intros k K. pose proof (AS k K) as Q1. pose proof (AT k K) as Q2. assert (Q3 : 0 < w AA BB k s \/ 0 < w AA BB k t) by (destruct (Nat.eq_dec k i) as [->|N]; [right; apply Ut; auto|left; apply Us; auto]). unfold w in *. replace (AA k + BB k * ((s + t) / 2)) with (((AA k + BB k * s) + (AA k + BB k * t)) / 2) by field. lra. }
    assert (STR : strictly_in_triangle a b d (line x0 x1 ((s + t) / 2)) /\ strictly_in_triangle a' b' d' (line x0 x1 ((s + t) / 2))).
    { split; [exists (w C D 2 ((s + t) / 2)), (w C D 0 ((s + t) / 2)), (w C D 1 ((s + t) / 2)); rewrite <- !WH; do 3 (split; [apply MID; lia|]); rewrite !WH; split; [apply G1|apply G]|].
      exists (w A B 2 ((s + t) / 2)), (w A B 0 ((s + t) / 2)), (w A B 1 ((s + t) / 2)). do 3 (split; [rewrite <- WL by lia; apply MID; lia|]). split; [apply F1|apply F]. }
    assert (SG : forall x, in_triangle a b d x /\ in_triangle a' b' d' x <-> exists u, s <= u <= t /\ x = line x0 x1 u) by (intros x; rewrite BOTH; split; intros (u & X & E); exists u; (split; [apply SEG, X|exact E])).
    destruct HITS as [H|H]; [exists (line x0 x1 s), (line x0 x1 t)|exists (line x0 x1 t), (line x0 x1 s)]; (split; [exact H|]); (split; [auto|]).
    + rewrite AT3. replace (s + 1 / 2 * (t - s)) with ((s + t) / 2) by field. split; [|exact STR]. intros x. rewrite SG. split.
      * intros (u & U & ->). exists ((u - s) / (t - s)). split; [|rewrite AT3; f_equal; field; lra]. split; [apply Rmult_le_reg_r with (t - s); [lra|]|apply Rmult_le_reg_r with (t - s); [lra|]]; unfold Rdiv; rewrite ?Rmult_assoc, ?Rinv_l, ?Rmult_1_r, ?Rmult_0_l by lra; lra.
      * intros (u & U & ->). exists (s + u * (t - s)). split; [|apply AT3]. assert (0 <= u * (t - s)) by (apply Rmult_le_pos; lra). assert (0 <= (1 - u) * (t - s)) by (apply Rmult_le_pos; lra). lra.
    + rewrite AT3'. replace (t + 1 / 2 * (s - t)) with ((s + t) / 2) by field. split; [|exact STR]. intros x. rewrite SG. split.
      * intros (u & U & ->). exists ((t - u) / (t - s)). split; [|rewrite AT3'; f_equal; field; lra]. split; [apply Rmult_le_reg_r with (t - s); [lra|]|apply Rmult_le_reg_r with (t - s); [lra|]]; unfold Rdiv; rewrite ?Rmult_assoc, ?Rinv_l, ?Rmult_1_r, ?Rmult_0_l by lra; lra.
      * intros (u & U & ->). exists (t + u * (s - t)). split; [|apply AT3']. assert (0 <= u * (t - s)) by (apply Rmult_le_pos; lra). assert (0 <= (1 - u) * (t - s)) by (apply Rmult_le_pos; lra). lra.
Qed.
