(** C77: examples. *)
From Coq Require Import List Arith Bool Reals Lra Lia Psatz.
From Verif Require Import SectionModel SectionSpec SectionProofs SectionTri SectionProps.
Import ListNotations.
Open Scope R_scope.

(** ** A solid that is not cut through *)
(** A decagon (on a parabola, in the plane of the last two coordinates) and an edge far away; the solid is their convex hull. *)
Definition chisel : list point :=
  [(0, - (1/64), 1/4); (0, - (1/64), - (1/4)); (0, - (1/16), 1/2); (0, - (1/16), - (1/2)); (0, - (9/64), 3/4); (0, - (9/64), - (3/4)); (0, - (1/4), 1); (0, - (1/4), -1); (0, - (25/64), 5/4); (0, - (25/64), - (5/4));
   (12, -4, 3/2); (12, -4, - (3/2))].
Lemma chisel_box : box_of chisel (0, -4, - (3/2)) (12, - (1/64), 3/2).
Proof.
  repeat split; cbn [fst snd].
  1: exists (0, - (1/64), 1/4). 2: exists (12, -4, 3/2). 5: exists (12, -4, 3/2). 6: exists (0, - (1/64), 1/4). 9: exists (12, -4, - (3/2)). 10: exists (12, -4, 3/2).
  all: try (split; [cbn; tauto|reflexivity]).
  all: repeat match goal with H : In _ chisel |- _ => destruct H as [<- | H] | H : In _ [] |- _ => destruct H end; cbn [fst snd]; try lra.
  all: cbn in H; repeat (destruct H as [<- | H]; [cbn [fst snd]; lra|]); destruct H.
Qed.
Lemma chisel_mean : mean chisel = (2, - (311/384), 0).
Proof. unfold mean. cbn [chisel map fold_right List.length fst snd]. replace (INR 12) with 12 by (cbn; ring). veq; field. Qed.
Lemma chisel_moderate : moderate chisel.
Proof. intros p I. unfold huge. assert (G : forall x, -100 <= x <= 100 -> Rabs x <= 10000000000) by (intros x X; unfold Rabs; destruct Rcase_abs; lra). cbn in I. repeat (destruct I as [<- | I]; [cbn [fst snd]; repeat split; apply G; lra|]). destruct I. Qed.
Lemma largest_z : largest (0, 0, 1) = 2%nat.
Proof. unfold largest. cbn [fold_left comp snd]. rewrite Rabs_R0, Rabs_R1. rewrite (ltb_true (- huge) 0) by (unfold huge; lra). cbn [snd]. rewrite (ltb_false 0 0) by lra. cbn [snd]. rewrite (ltb_true 0 1) by lra. reflexivity. Qed.
(** The offset 1/2 along the third axis stands for the plane z = 0, in which the triangle is; a point of the solid in this plane is not in it. *)
Theorem C77_covered_refuted : forall e, exists a b c x,
  triangle exact exact chisel (0, 0, 1) (1 / 2) e = Some (a, b, c) /\ height_of (0, 0, 1) chisel (1 / 2) 0 /\ hull chisel x /\ scalar (0, 0, 1) x = 0 /\ ~ in_triangle a b c x.
Proof.
  intros e. destruct (triangle_form chisel (0, 0, 1) (1 / 2) e) as (n & U & V & l & D & L & EN & F & (k & K & EU & EV) & D0 & DB & E); [discriminate|intros E; injection E; lra|intros s S; split; intros E; injection E; lra|].
  assert (N1 : n = (0, 0, 1) /\ l = 1).
  { pose proof (fn _ _ _ F) as N. destruct n as [[x y] z]. cbn in EN, N. unfold id_ in EN. injection EN as E1 E2 E3. assert (x = 0) by nra. assert (y = 0) by nra. subst x y. assert (Z : z * z = 1) by lra. assert (z = 1) by nra. subst z. split; [reflexivity|lra]. }
  destruct N1 as [-> ->]. unfold other_vector in EU. rewrite largest_z in EU. unfold same, unit in EU. rewrite eqb_refl in EU. cbn in EU. unfold id_ in EU.
  assert (EU' : U = (0, 1, 0)). { pose proof (fu _ _ _ F) as N. rewrite EU in N. cbn in N. assert (k = 1) by nra. subst k. rewrite EU. veq; ring. }
  clear EU. subst U. assert (EV' : V = (-1, 0, 0)) by (rewrite EV; cbn; unfold id_; veq; ring). clear EV. subst V.
  destruct (DB _ _ chisel_box) as [_ DD]. specialize (DD chisel_moderate). unfold distance2, minus, scalar in DD.
  assert (D26 : D <= 26) by nra.
  assert (FT : foot (0, 0, 1) (mean chisel) = (2, - (311/384), 0)) by (rewrite chisel_mean; unfold foot, scalar; veq; field). rewrite FT in E. remember (2, - (311/384), 0) as m eqn:EM.
  exists (ad m (ml (ml (ad (0, 1, 0) (-1, 0, 0)) (/ sqrt 2)) D)), (ad m (ml (ml (sb (0, 1, 0) (-1, 0, 0)) (/ sqrt 2)) D)), (sb m (ml (0, 1, 0) D)), (12, -4, 0).
  split; [exact E|]. split; [|split; [|split]].
  - exists (12, -4, - (3/2)), (12, -4, 3/2). split; [cbn; tauto|]. split; [cbn; tauto|]. split; [|cbn; field]. intros p I. cbn in I. repeat (destruct I as [<- | I]; [cbn; lra|]). destruct I.
  - replace (12, -4, 0) with (at_ (12, -4, 3/2) (12, -4, - (3/2)) (1 / 2)) by (unfold at_; veq; field). apply hull_between; [apply hull_vertex; cbn; tauto|apply hull_vertex; cbn; tauto|lra].
  - cbn. ring.
  - intros T. destruct h2_facts as (S & Q & _ & _). assert (Q3 : sqrt 2 < 143/100) by nra. assert (Q4 : 7/5 < sqrt 2) by nra.
    destruct (coords_u (0, 0, 1) (0, 1, 0) (-1, 0, 0) m D F) as (U0 & U1 & U2). destruct (coords_v (0, 0, 1) (0, 1, 0) (-1, 0, 0) m D F) as (V0 & V1 & V2).
    assert (LC : forall q : point, scalar (1, - (sqrt 2 - 1), 0) q = - scalar (-1, 0, 0) q - (sqrt 2 - 1) * scalar (0, 1, 0) q) by (intros [[x y] z]; cbn; ring).
    assert (H : scalar (1, - (sqrt 2 - 1), 0) (12, -4, 0) <= - scalar (-1, 0, 0) m - (sqrt 2 - 1) * scalar (0, 1, 0) m + (sqrt 2 - 1) * D).
    { apply (hull_le [ad m (ml (ml (ad (0, 1, 0) (-1, 0, 0)) (/ sqrt 2)) D); ad m (ml (ml (sb (0, 1, 0) (-1, 0, 0)) (/ sqrt 2)) D); sb m (ml (0, 1, 0) D)]); [|exact T]. intros p I. rewrite LC. destruct I as [<-|[<-|[<-|[]]]].
      - rewrite U0, V0. nra.
      - rewrite U1, V1. assert (D * (sqrt 2 / 2) - (sqrt 2 - 1) * (D * (sqrt 2 / 2)) = (sqrt 2 - 1) * D); [|lra]. replace (D * (sqrt 2 / 2) - (sqrt 2 - 1) * (D * (sqrt 2 / 2))) with (D * sqrt 2 - D * (sqrt 2 * sqrt 2) / 2) by field. rewrite Q. field.
      - rewrite U2, V2. lra. }
    rewrite EM in H. cbn in H. nra.
Qed.

(** ** The example of the tutorial (tutorials/PlanarSectioning): a cube, normal vector (0, 1, 1), offset 0.45 *)
Definition cube : list point := [(-5, -5, 5); (5, -5, 5); (5, 5, 5); (-5, 5, 5); (-5, -5, -5); (5, -5, -5); (5, 5, -5); (-5, 5, -5)].
Ltac each H := cbn in H; repeat (destruct H as [<- | H]; [cbn [scalar fst snd]; lra|]); destruct H.
Lemma cube_box : box_of cube (-5, -5, -5) (5, 5, 5).
Proof.
  repeat split; cbn [fst snd].
  1, 5, 9: exists (-5, -5, -5); split; [cbn; tauto|reflexivity]. 1, 4, 7: exists (5, 5, 5); split; [cbn; tauto|reflexivity].
  all: each H.
Qed.
Lemma cube_mean : mean cube = (0, 0, 0).
Proof. unfold mean. cbn [cube map fold_right List.length fst snd]. replace (INR 8) with 8 by (cbn; ring). veq; field. Qed.
(** The section is asked for at height -1 and made at height 0. *)
Theorem C77_tutorial_refuted : forall e, exists a b c,
  triangle exact exact cube (0, 1, 1) (45 / 100) e = Some (a, b, c) /\ height_of (0, 1, 1) cube (45 / 100) (-1) /\ forall x, in_triangle a b c x -> scalar (0, 1, 1) x = 0.
Proof.
  intros e. destruct (triangle exact exact cube (0, 1, 1) (45 / 100) e) as [[[a b] c]|] eqn:E.
  - exists a, b, c. split; [reflexivity|]. split; [|apply (C77_plane cube (0, 1, 1) (45 / 100) e a b c); [discriminate|exact E]].
    exists (5, -5, -5), (5, 5, 5). split; [cbn; tauto|]. split; [cbn; tauto|]. split; [intros p I; each I|cbn; field].
  - exfalso. apply (C77_defined cube (0, 1, 1) (45 / 100) e) in E; [|discriminate]. destruct E as [E | (s & S & [E | E])]; injection E; lra.
Qed.
(** With the offset 0.5 the cube is cut as asked for. *)
Theorem C77_case : forall e, exists a b c,
  triangle exact exact cube (0, 1, 1) (1 / 2) e = Some (a, b, c) /\ height_of (0, 1, 1) cube (1 / 2) 0 /\ forall x, hull cube x -> scalar (0, 1, 1) x = 0 -> in_triangle a b c x.
Proof.
  intros e. destruct (triangle exact exact cube (0, 1, 1) (1 / 2) e) as [[[a b] c]|] eqn:E.
  - assert (H : height_of (0, 1, 1) cube (1 / 2) 0) by (exists (5, -5, -5), (5, 5, 5); split; [cbn; tauto|]; split; [cbn; tauto|]; split; [intros p I; each I|cbn; field]).
    exists a, b, c. split; [reflexivity|]. split; [exact H|]. apply (C77_centred_partial cube (0, 1, 1) (1 / 2) e a b c (-5, -5, -5) (5, 5, 5)); [discriminate|exact E|exact H|exact cube_box|]. rewrite cube_mean. unfold distance2, minus, scalar, at_. lra.
  - exfalso. apply (C77_defined cube (0, 1, 1) (1 / 2) e) in E; [|discriminate]. destruct E as [E | (s & S & [E | E])]; injection E; lra.
Qed.
(** A cube that does not touch the plane z = 0 is not cut, at any offset. *)
Definition high_cube : list point := [(-5, -5, 25); (5, -5, 25); (5, 5, 25); (-5, 5, 25); (-5, -5, 15); (5, -5, 15); (5, 5, 15); (-5, 5, 15)].
Theorem C77_missed_case : forall o e, 0 <= o <= 1 -> exists a b c,
  triangle exact exact high_cube (0, 0, 1) o e = Some (a, b, c) /\ height_of (0, 0, 1) high_cube o (15 + o * 10) /\
  (exists x, hull high_cube x /\ scalar (0, 0, 1) x = 15 + o * 10) /\ forall x, hull high_cube x -> ~ in_triangle a b c x.
Proof.
  intros o e O. destruct (triangle exact exact high_cube (0, 0, 1) o e) as [[[a b] c]|] eqn:E.
  - assert (H : height_of (0, 0, 1) high_cube o (15 + o * 10)) by (exists (5, 5, 15), (5, 5, 25); split; [cbn; tauto|]; split; [cbn; tauto|]; split; [intros p I; each I|cbn; field]).
    destruct (C77_missed_refuted high_cube (0, 0, 1) o e (15 + o * 10)) as [X Y]; [discriminate|intros p I; each I|exact O|exact H|].
    exists a, b, c. split; [reflexivity|]. split; [exact H|]. split; [exact X|]. intros x HX. apply (Y a b c x E HX).
  - exfalso. apply (C77_defined high_cube (0, 0, 1) o e) in E; [|discriminate]. destruct E as [E | (s & S & [E | E])]; injection E; lra.
Qed.
