(** The point-in-polygon test in a plane of space: transfer along the projection. *)
From Coq Require Import List Reals Lra Lia Bool Ascii.
From Verif Require Import GeoModel GeoSpec GeoSeg GeoPlane GeoProj GeoPip GeoSweep GeoEvenOdd.
Import ListNotations.
Open Scope R_scope.

Lemma combine_map {A B} (f : A -> B) l l' : combine (map f l) (map f l') = map (fun e => (f (fst e), f (snd e))) (combine l l').
Proof. revert l'. induction l as [|a l IH]; intros [|b l']; cbn; try reflexivity. rewrite IH. reflexivity. Qed.
Lemma removelast_map {A B} (f : A -> B) l : removelast (map f l) = map f (removelast l).
Proof. induction l as [|a l IH]; [reflexivity|]. destruct l as [|b l]; [reflexivity|]. cbn [map] in *. change (removelast (f a :: f b :: map f l)) with (f a :: removelast (f b :: map f l)). rewrite IH. reflexivity. Qed.
Lemma last_map {A B} (f : A -> B) l d : last (map f l) (f d) = f (last l d).
Proof. induction l as [|a l IH]; [reflexivity|]. destruct l as [|b l]; [reflexivity|]. exact IH. Qed.
Lemma edges_map {A B} (f : A -> B) ps : edges_of (map f ps) = map (fun e => (f (fst e), f (snd e))) (edges_of ps).
Proof.
  destruct ps as [|p ps]; [reflexivity|]. unfold edges_of. cbn [map]. change (f p :: map f ps) with (map f (p :: ps)). rewrite last_map, removelast_map. change (f (last (p :: ps) p) :: map f (removelast (p :: ps))) with (map f (last (p :: ps) p :: removelast (p :: ps))). apply combine_map.
Qed.
Lemma parity_map {A B} (f : A -> B) (P : B -> Prop) (Q : A -> Prop) l b : (forall x, In x l -> (Q x <-> P (f x))) -> (parity P (map f l) b <-> parity Q l b).
Proof.
  revert b. induction l as [|a l IH]; intros b H; cbn [map].
  - split; intros K; inversion K; constructor.
  - assert (IH' : forall b, parity P (map f l) b <-> parity Q l b) by (intros b'; apply IH; intros; apply H; right; assumption).
    split; intros K; inversion K; subst.
    + apply par_yes; [apply H; [left; reflexivity|assumption]|apply IH'; assumption].
    + apply par_no; [rewrite H by (left; reflexivity); assumption|apply IH'; assumption].
    + apply par_yes; [apply H; [left; reflexivity|assumption]|apply IH'; assumption].
    + apply par_no; [rewrite <- H by (left; reflexivity); assumption|apply IH'; assumption].
Qed.

Section Regular.
Variables (n : vec3) (c : nat).
Hypothesis C : (c <= 2)%nat.
Hypothesis Rg : regular n c.

Lemma dot_seg a b t m : dot3 n a = m -> dot3 n b = m -> dot3 n (at3 a b t) = m.
Proof. intros A B. rewrite dot_at3, A, B. ring. Qed.

Lemma seg_project m a b p : dot3 n a = m -> dot3 n b = m -> dot3 n p = m -> (on_segment3 a b p <-> on_segment (project n c a) (project n c b) (project n c p)).
Proof.
  intros A B P. split; intros (t & T & E); exists t; (split; [exact T|]).
  - rewrite E. apply project_at3.
  - apply (regular_injective n c); auto; [rewrite P; symmetry; apply dot_seg; assumption|]. rewrite project_at3. exact E.
Qed.

Lemma boundary_project q ps : (forall p, In p ps -> dot3 n p = dot3 n q) -> (on_boundary3 q ps <-> on_boundary (project n c q) (map (project n c) ps)).
Proof.
  intros Pl. unfold on_boundary, on_boundary3. rewrite edges_map. split.
  - intros ([u v] & E & S). exists (project n c u, project n c v). destruct (edges_in_l ps u v E) as [Iu Iv]. split; [apply in_map_iff; exists (u, v); auto|]. cbn [fst snd] in *. apply (seg_project (dot3 n q)); auto.
  - intros (e & E & S). apply in_map_iff in E. destruct E as ([u v] & <- & E). destruct (edges_in_l ps u v E) as [Iu Iv]. exists (u, v). split; [exact E|]. cbn [fst snd] in *. apply (seg_project (dot3 n q)); auto.
Qed.

Lemma crosses_project q r u v : dot3 n r = dot3 n q -> dot3 n u = dot3 n q -> dot3 n v = dot3 n q ->
  (crosses3 q r (u, v) <-> crosses (project n c q) (project n c r) (project n c u, project n c v)).
Proof.
  intros Rq Uq Vq. unfold crosses, crosses3, common. cbn [fst snd]. split.
  - intros (x & S1 & S2). exists (project n c x). assert (X : dot3 n x = dot3 n q) by (destruct S1 as (t & _ & ->); apply dot_seg; auto). split; apply (seg_project (dot3 n q)); auto.
  - intros (x & (t & T & E) & S2). exists (at3 q r t). split; [exists t; auto|]. apply (seg_project (dot3 n q)); auto; [apply dot_seg; auto|]. rewrite project_at3, <- E. exact S2.
Qed.

(** a linear function on the plane is a linear function of the projection *)
Lemma functional f : exists g h, forall p q, dot3 n p = dot3 n q -> dot3 f p - dot3 f q = (g * fst (project n c p) + h * snd (project n c p)) - (g * fst (project n c q) + h * snd (project n c q)).
Proof.
  pose proof (regular_comp n c C Rg) as N.
  assert (B : exists u v, dot3 n u = 0 /\ dot3 n v = 0 /\ comp (cross_product u v) c <> 0 /\ (forall w, dot3 n w = 0 -> exists s t, comp w 0 = s * comp u 0 + t * comp v 0 /\ comp w 1 = s * comp u 1 + t * comp v 1 /\ comp w 2 = s * comp u 2 + t * comp v 2)).
  { destruct n as [[n1 n2] n3]. destruct c as [|[|[|c']]]; [| | |lia]; cbn [comp] in N.
    - exists (- n2, n1, 0), (- n3, 0, n1). cbn. split; [ring|]. split; [ring|]. split; [replace (n1 * n1 - 0 * 0) with (n1 * n1) by ring; intros Z; apply Rmult_integral in Z; tauto|].
      intros [[w1 w2] w3] W. exists (w2 / n1), (w3 / n1). cbn in *. repeat split; [|field; exact N|field; exact N]. apply Rmult_eq_reg_r with n1; [|exact N]. field_simplify; [lra|exact N].
    - exists (n2, - n1, 0), (0, - n3, n2). cbn. split; [ring|]. split; [ring|]. split; [replace (0 * 0 - n2 * n2) with (- (n2 * n2)) by ring; intros Z; assert (Z' : n2 * n2 = 0) by lra; apply Rmult_integral in Z'; tauto|].
      intros [[w1 w2] w3] W. exists (w1 / n2), (w3 / n2). cbn in *. repeat split; [field; exact N| |field; exact N]. apply Rmult_eq_reg_r with n2; [|exact N]. field_simplify; [lra|exact N].
    - exists (n3, 0, - n1), (0, n3, - n2). cbn. split; [ring|]. split; [ring|]. split; [replace (n3 * n3 - 0 * 0) with (n3 * n3) by ring; intros Z; apply Rmult_integral in Z; tauto|].
      intros [[w1 w2] w3] W. exists (w1 / n3), (w2 / n3). cbn in *. repeat split; [field; exact N|field; exact N|]. apply Rmult_eq_reg_r with n3; [|exact N]. field_simplify; [lra|exact N]. }
  destruct B as (u & v & Nu & Nv & Cx & Sp).
  destruct (project_cross n c u v C N Nu Nv) as (k & K & E). assert (D : cross2 (project n c u) (project n c v) <> 0) by (rewrite E; intros Z; apply Rmult_integral in Z; tauto).
  unfold cross2, px, py in D.
  set (u1 := fst (project n c u)) in *. set (u2 := snd (project n c u)) in *. set (v1 := fst (project n c v)) in *. set (v2 := snd (project n c v)) in *.
  exists ((dot3 f u * v2 - dot3 f v * u2) / (u1 * v2 - u2 * v1)), ((dot3 f v * u1 - dot3 f u * v1) / (u1 * v2 - u2 * v1)).
  intros p q Pq. destruct (Sp (vsub p q)) as (s & t & S1 & S2 & S3). { destruct n as [[n1 n2] n3], p as [[p1 p2] p3], q as [[q1 q2] q3]. cbn in *. lra. }
  assert (F : dot3 f p - dot3 f q = s * dot3 f u + t * dot3 f v).
  { destruct f as [[f1 f2] f3], p as [[p1 p2] p3], q as [[q1 q2] q3], u as [[a1 a2] a3], v as [[b1 b2] b3]. cbn in *. replace (_ - _) with (f1 * (p1 - q1) + f2 * (p2 - q2) + f3 * (p3 - q3)) by ring. rewrite S1, S2, S3. ring. }
  assert (P : fst (project n c p) - fst (project n c q) = s * u1 + t * v1 /\ snd (project n c p) - snd (project n c q) = s * u2 + t * v2).
  { pose proof (project_sub n c p q) as Q. assert (L : project n c (vsub p q) = (s * u1 + t * v1, s * u2 + t * v2)).
    { unfold u1, u2, v1, v2, project. destruct (kept_rows c) as [i j]. cbn [fst snd]. unfold row_times. rewrite S1, S2, S3. f_equal; ring. }
    rewrite L in Q. injection Q as Q1 Q2. unfold px, py in *. split; lra. }
  destruct P as [P1 P2]. rewrite F.
  set (P1' := fst (project n c p)) in *. set (Q1' := fst (project n c q)) in *. set (P2' := snd (project n c p)) in *. set (Q2' := snd (project n c q)) in *.
  replace P1' with (Q1' + (s * u1 + t * v1)) by lra. replace P2' with (Q2' + (s * u2 + t * v2)) by lra. field. exact D.
Qed.

Lemma beyond_project r ps : (forall p, In p ps -> dot3 n p = dot3 n r) -> beyond3 r ps -> beyond (project n c r) (map (project n c) ps).
Proof.
  intros Pl (f & H). destruct (functional f) as (g & h & E). exists g, h. intros p' I. apply in_map_iff in I. destruct I as (p & <- & P). specialize (H p P). specialize (E p r (Pl p P)). lra.
Qed.

Lemma even_odd_project q ps b : (forall p, In p ps -> dot3 n p = dot3 n q) -> even_odd (project n c q) (map (project n c) ps) b -> even_odd3 n q ps b.
Proof.
  intros Pl H r Rq Br A.
  assert (B2 : beyond (project n c r) (map (project n c) ps)) by (apply beyond_project; [intros p P; rewrite (Pl p P); auto|exact Br]).
  assert (A2 : avoids (project n c q) (project n c r) (map (project n c) ps)).
  { intros p' I. apply in_map_iff in I. destruct I as (p & <- & P). intros S. apply (A p P). apply (seg_project (dot3 n q)); auto. }
  specialize (H _ B2 A2). rewrite edges_map in H. apply (parity_map (fun e => (project n c (fst e), project n c (snd e))) (crosses (project n c q) (project n c r)) (crosses3 q r)) in H; [exact H|].
  intros [u v] E. destruct (edges_in_l ps u v E) as [Iu Iv]. apply crosses_project; auto.
Qed.

(** the projection reaches every point *)
Lemma project_onto q p' : exists p, dot3 n p = dot3 n q /\ project n c p = p'.
Proof.
  pose proof (regular_comp n c C Rg) as N.
  assert (B : exists u v, dot3 n u = 0 /\ dot3 n v = 0 /\ comp (cross_product u v) c <> 0).
  { destruct n as [[n1 n2] n3]. destruct c as [|[|[|c']]]; [| | |lia]; cbn [comp] in N.
    - exists (- n2, n1, 0), (- n3, 0, n1). cbn. split; [ring|]. split; [ring|]. replace (n1 * n1 - 0 * 0) with (n1 * n1) by ring; intros Z; apply Rmult_integral in Z; tauto.
    - exists (n2, - n1, 0), (0, - n3, n2). cbn. split; [ring|]. split; [ring|]. replace (0 * 0 - n2 * n2) with (- (n2 * n2)) by ring; intros Z; assert (Z' : n2 * n2 = 0) by lra; apply Rmult_integral in Z'; tauto.
    - exists (n3, 0, - n1), (0, n3, - n2). cbn. split; [ring|]. split; [ring|]. replace (n3 * n3 - 0 * 0) with (n3 * n3) by ring; intros Z; apply Rmult_integral in Z; tauto. }
  destruct B as (u & v & Nu & Nv & Cx).
  destruct (project_cross n c u v C N Nu Nv) as (k & K & E). assert (D : cross2 (project n c u) (project n c v) <> 0) by (rewrite E; intros Z; apply Rmult_integral in Z; tauto).
  unfold cross2, px, py in D.
  set (u1 := fst (project n c u)) in *. set (u2 := snd (project n c u)) in *. set (v1 := fst (project n c v)) in *. set (v2 := snd (project n c v)) in *.
  set (w1 := fst p' - fst (project n c q)). set (w2 := snd p' - snd (project n c q)).
  set (s := (w1 * v2 - w2 * v1) / (u1 * v2 - u2 * v1)). set (t := (u1 * w2 - u2 * w1) / (u1 * v2 - u2 * v1)).
  exists (vadd q (vadd (scaled s u) (scaled t v))). split.
  - destruct n as [[n1 n2] n3], q as [[q1 q2] q3], u as [[a1 a2] a3], v as [[b1 b2] b3]. cbn in *. replace (_ + _ + _) with ((n1 * q1 + n2 * q2 + n3 * q3) + s * (n1 * a1 + n2 * a2 + n3 * a3) + t * (n1 * b1 + n2 * b2 + n3 * b3)) by ring. rewrite Nu, Nv. ring.
  - assert (L : project n c (vadd q (vadd (scaled s u) (scaled t v))) = (fst (project n c q) + s * u1 + t * v1, snd (project n c q) + s * u2 + t * v2)).
    { unfold u1, u2, v1, v2, project. destruct (kept_rows c) as [i j]. cbn [fst snd]. unfold row_times. destruct q as [[q1 q2] q3], u as [[a1 a2] a3], v as [[b1 b2] b3]. cbn [vadd scaled comp]. f_equal; ring. }
    rewrite L. rewrite (surjective_pairing p'). f_equal.
    + replace (fst p') with (fst (project n c q) + w1) by (unfold w1; ring). unfold s, t. field. exact D.
    + replace (snd p') with (snd (project n c q) + w2) by (unfold w2; ring). unfold s, t. field. exact D.
Qed.

Lemma generic3_exists q ps : (forall p, In p ps -> dot3 n p = dot3 n q) -> ~ In q ps -> exists r, dot3 n r = dot3 n q /\ beyond3 r ps /\ avoids3 q r ps.
Proof.
  intros Pl Nq. destruct (generic_exists (project n c q) (map (project n c) ps)) as (r' & (f & g & B) & A).
  { intros I. apply in_map_iff in I. destruct I as (p & E & P). apply Nq. rewrite (regular_injective n c p q) in P; auto. }
  destruct (project_onto q r') as (r & Rq & <-). exists r. split; [exact Rq|]. split.
  - (* the linear function composed with the projection *)
    unfold project in B. destruct (kept_rows c) as [i j] eqn:Ek. set (m := rotation n c) in *.
    exists (f * m i 0%nat + g * m j 0%nat, f * m i 1%nat + g * m j 1%nat, f * m i 2%nat + g * m j 2%nat). intros p P.
    specialize (B (row_times m i p, row_times m j p)). assert (I : In (row_times m i p, row_times m j p) (map (fun v : vec3 => (row_times m i v, row_times m j v)) ps)) by (apply in_map_iff; exists p; auto).
    specialize (B I). cbn [fst snd] in B. unfold row_times in B. destruct p as [[p1 p2] p3], r as [[r1 r2] r3]. cbn [comp dot3] in *. lra.
  - intros p P S. apply (A (project n c p)); [apply in_map, P|]. apply (seg_project (dot3 n q)); auto.
Qed.
End Regular.
