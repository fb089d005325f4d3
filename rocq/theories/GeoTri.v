(** Point in triangle: proofs. *)
From Coq Require Import List Reals Lra Lia Bool Ascii.
From Verif Require Import GeoModel GeoSpec GeoSeg GeoPip GeoStrip GeoSweep GeoEvenOdd.
Import ListNotations.
Open Scope R_scope.

Definition dt (ax ay bx by_ : R) := ax * by_ - ay * bx.
Definition same3 (x y z : R) : Prop := (0 < x /\ 0 < y /\ 0 < z) \/ (x < 0 /\ y < 0 /\ z < 0).

(** the origin is on the segment from a to b *)
Definition at0 (ax ay bx by_ : R) : Prop := dt ax ay bx by_ = 0 /\ within ax bx 0 /\ within ay by_ 0.

Lemma straddle_at0 ax ay bx by_ : dt ax ay bx by_ = 0 -> (0 < ay /\ by_ <= 0 \/ ay <= 0 /\ 0 < by_) -> at0 ax ay bx by_.
Proof.
  intros D S. split; [exact D|]. split; [|unfold within; lra]. unfold dt, within in *.
  destruct (Rle_dec ax 0) as [A|A], (Rle_dec bx 0) as [B|B]; try lra.
  - destruct S as [[S1 S2]|[S1 S2]]; assert (ax = 0 \/ bx = 0 \/ (ax < 0 /\ bx < 0)) as [->|[->|[]]] by lra; try lra; nra.
  - destruct S as [[S1 S2]|[S1 S2]]; nra.
Qed.

(** one vertex alone on its side *)
Lemma apex ax ay bx by_ cx cy : let oa := dt bx by_ cx cy in let ob := dt cx cy ax ay in let oc := dt ax ay bx by_ in
  (0 < ay /\ by_ <= 0 /\ cy <= 0) \/ (ay <= 0 /\ 0 < by_ /\ 0 < cy) ->
  ~ at0 ax ay bx by_ -> ~ at0 bx by_ cx cy -> ~ at0 cx cy ax ay ->
  (xorb (ray cy ay ob) (xorb (ray ay by_ oc) (ray by_ cy oa)) = true <-> same3 oa ob oc).
Proof.
  intros oa ob oc H N1 N2 N3.
  assert (E : oa * ay + ob * by_ + oc * cy = 0) by (unfold oa, ob, oc, dt; ring).
  assert (Zc : oc <> 0) by (intros Z; apply N1, straddle_at0; [exact Z|lra]). assert (Zb : ob <> 0) by (intros Z; apply N3, straddle_at0; [exact Z|lra]).
  assert (Zy : by_ = 0 -> cy = 0 -> oc = - (ay * bx) /\ ob = ay * cx) by (intros -> ->; unfold oc, ob, dt; split; ring).
  assert (Na : by_ = 0 -> cy = 0 -> ~ within bx cx 0) by (intros -> -> W; apply N2; split; [unfold dt; ring|split; [exact W|unfold within; lra]]).
  clearbody oa ob oc. unfold ray, same3, within in *.
  destruct H as [(A & B & C)|(A & B & C)].
  - destruct (ltb_spec 0 ay) as [[-> _]|[_ K]]; [|lra]. destruct (ltb_spec 0 by_) as [[_ K]|[-> _]]; [lra|]. destruct (ltb_spec 0 cy) as [[_ K]|[-> _]]; [lra|]. cbn [xorb andb]. rewrite xorb_false_r.
    destruct (ltb_spec 0 ob) as [[-> Sb]|[-> Sb]], (ltb_spec oc 0) as [[-> Sc]|[-> Sc]]; cbn [xorb]; split; try discriminate; try reflexivity; intros K; try lra.
    + left. assert (0 < oc) by lra. assert (0 <= oa * ay) by nra. destruct (Rtotal_order oa 0) as [Q|[Q|Q]]; [nra| |lra].
      exfalso. rewrite Q in E. assert (ob * by_ = 0) by nra. assert (oc * cy = 0) by nra. apply Rmult_integral in H1. apply Rmult_integral in H2. assert (B0 : by_ = 0) by lra. assert (C0 : cy = 0) by lra. destruct (Zy B0 C0). apply (Na B0 C0). left. split; nra.
    + right. assert (ob < 0) by lra. assert (oa * ay <= 0) by nra. destruct (Rtotal_order oa 0) as [Q|[Q|Q]]; [lra| |nra].
      exfalso. rewrite Q in E. assert (ob * by_ = 0) by nra. assert (oc * cy = 0) by nra. apply Rmult_integral in H1. apply Rmult_integral in H2. assert (B0 : by_ = 0) by lra. assert (C0 : cy = 0) by lra. destruct (Zy B0 C0). apply (Na B0 C0). right. split; nra.
  - destruct (ltb_spec 0 ay) as [[_ K]|[-> _]]; [lra|]. destruct (ltb_spec 0 by_) as [[-> _]|[_ K]]; [|lra]. destruct (ltb_spec 0 cy) as [[-> _]|[_ K]]; [|lra]. cbn [xorb andb]. rewrite xorb_false_r.
    destruct (ltb_spec ob 0) as [[-> Sb]|[-> Sb]], (ltb_spec 0 oc) as [[-> Sc]|[-> Sc]]; cbn [xorb]; split; try discriminate; try reflexivity; intros K; try lra.
    + right. assert (oc < 0) by lra. assert (0 < oa * ay) by nra. assert (oa < 0) by nra. lra.
    + left. assert (0 < ob) by lra. assert (oa * ay < 0) by nra. assert (0 < oa) by nra. lra.
Qed.

Lemma same3_rot x y z : same3 x y z <-> same3 y z x.
Proof. unfold same3. split; intros; lra. Qed.

Lemma tri_core ax ay bx by_ cx cy : let oa := dt bx by_ cx cy in let ob := dt cx cy ax ay in let oc := dt ax ay bx by_ in
  oa + ob + oc <> 0 ->
  ~ at0 ax ay bx by_ -> ~ at0 bx by_ cx cy -> ~ at0 cx cy ax ay ->
  (xorb (ray cy ay ob) (xorb (ray ay by_ oc) (ray by_ cy oa)) = true <-> same3 oa ob oc).
Proof.
  intros oa ob oc S N1 N2 N3.
  assert (E : oa * ay + ob * by_ + oc * cy = 0) by (unfold oa, ob, oc, dt; ring).
  destruct (Rlt_dec 0 ay) as [A|A], (Rlt_dec 0 by_) as [B|B], (Rlt_dec 0 cy) as [C|C].
  - unfold ray. destruct (ltb_spec 0 ay) as [[-> _]|[_ K]]; [|lra]. destruct (ltb_spec 0 by_) as [[-> _]|[_ K]]; [|lra]. destruct (ltb_spec 0 cy) as [[-> _]|[_ K]]; [|lra]. cbn [xorb andb].
    split; [discriminate|]. intros K. exfalso. clearbody oa ob oc. destruct K as [(K1 & K2 & K3)|(K1 & K2 & K3)]; nra.
  - pose proof (apex cx cy ax ay bx by_) as K. cbn zeta in K. fold oa ob oc in K. rewrite (same3_rot oa ob oc), (same3_rot ob oc oa), <- K; [|lra|assumption..]. destruct (ray by_ cy oa), (ray cy ay ob), (ray ay by_ oc); tauto.
  - pose proof (apex bx by_ cx cy ax ay) as K. cbn zeta in K. fold oa ob oc in K. rewrite (same3_rot oa ob oc), <- K; [|lra|assumption..]. destruct (ray by_ cy oa), (ray cy ay ob), (ray ay by_ oc); tauto.
  - apply apex; try assumption. lra.
  - apply apex; try assumption. lra.
  - pose proof (apex bx by_ cx cy ax ay) as K. cbn zeta in K. fold oa ob oc in K. rewrite (same3_rot oa ob oc), <- K; [|lra|assumption..]. destruct (ray by_ cy oa), (ray cy ay ob), (ray ay by_ oc); tauto.
  - pose proof (apex cx cy ax ay bx by_) as K. cbn zeta in K. fold oa ob oc in K. rewrite (same3_rot oa ob oc), (same3_rot ob oc oa), <- K; [|lra|assumption..]. destruct (ray by_ cy oa), (ray cy ay ob), (ray ay by_ oc); tauto.
  - unfold ray. destruct (ltb_spec 0 ay) as [[_ K]|[-> _]]; [lra|]. destruct (ltb_spec 0 by_) as [[_ K]|[-> _]]; [lra|]. destruct (ltb_spec 0 cy) as [[_ K]|[-> _]]; [lra|]. cbn [xorb andb].
    split; [discriminate|]. intros K. exfalso.
    assert (Z : ay = 0 -> by_ = 0 -> cy = 0 -> False) by (intros -> -> ->; apply S; unfold oa, ob, oc, dt; ring). clearbody oa ob oc.
    assert (oa * ay = 0 /\ ob * by_ = 0 /\ oc * cy = 0) as (Z1 & Z2 & Z3) by (destruct K as [(K1 & K2 & K3)|(K1 & K2 & K3)]; repeat split; nra).
    apply Rmult_integral in Z1. apply Rmult_integral in Z2. apply Rmult_integral in Z3. unfold same3 in K. apply Z; lra.
Qed.

(** strictly inside: a combination with positive weights *)
Lemma inside_iff a b c q : orient2d a b c <> 0 ->
  (inside_triangle a b c q <->
   same3 (orient2d b c q) (orient2d c a q) (orient2d a b q)).
Proof.
  intros S. set (s := orient2d a b c) in *. assert (Es : orient2d b c q + orient2d c a q + orient2d a b q = s) by (unfold s, orient2d; ring). split.
  - intros (x & y & z & X & Y & Z & W & E1 & E2).
    assert (K1 : orient2d b c q = x * s). { unfold s, orient2d, px, py. rewrite E1, E2. replace z with (1 - x - y) by lra. ring. }
    assert (K2 : orient2d c a q = y * s). { unfold s, orient2d, px, py. rewrite E1, E2. replace z with (1 - x - y) by lra. ring. }
    assert (K3 : orient2d a b q = z * s). { unfold s, orient2d, px, py. rewrite E1, E2. replace z with (1 - x - y) by lra. ring. }
    rewrite K1, K2, K3. destruct (Rlt_dec 0 s); [left|right; assert (s < 0) by lra]; repeat split; nra.
  - intros K. exists (orient2d b c q / s), (orient2d c a q / s), (orient2d a b q / s).
    assert (P : forall x, (0 < s -> 0 < x) -> (s < 0 -> x < 0) -> 0 < x / s). { intros x P1 P2. destruct (Rlt_dec 0 s); [apply Rdiv_lt_0_compat; auto|]. replace (x / s) with ((- x) / (- s)) by (field; exact S). assert (s < 0) by lra. apply Rdiv_lt_0_compat; [specialize (P2 H); lra|lra]. }
    assert (Sg : (0 < s /\ 0 < orient2d b c q /\ 0 < orient2d c a q /\ 0 < orient2d a b q) \/ (s < 0 /\ orient2d b c q < 0 /\ orient2d c a q < 0 /\ orient2d a b q < 0)) by (destruct K as [K|K]; lra).
    split; [apply P; intros; lra|]. split; [apply P; intros; lra|]. split; [apply P; intros; lra|].
    split; [rewrite <- Es; field; lra|]. clear - S. unfold s in *. clear s. unfold orient2d, px, py in *. split; field; exact S.
Qed.

Lemma at0_rel q u v : at0 (px (rel q u)) (py (rel q u)) (px (rel q v)) (py (rel q v)) <-> on_segment u v q.
Proof.
  rewrite on_segment_iff. unfold at0, dt, rel, orient2d, within, px, py. cbn [fst snd]. split; intros (A & B & C); (split; [lra|split; lra]).
Qed.

Lemma pip_triangle a b c q : orient2d a b c <> 0 -> ~ on_boundary q [a; b; c] ->
  (esum (rc q) [a; b; c] = true <-> same3 (orient2d b c q) (orient2d c a q) (orient2d a b q)).
Proof.
  intros S B.
  assert (D : forall u v, dt (px (rel q u)) (py (rel q u)) (px (rel q v)) (py (rel q v)) = orient2d u v q) by (intros u v; unfold dt, rel, orient2d, px, py; cbn [fst snd]; ring).
  pose proof (tri_core (px (rel q a)) (py (rel q a)) (px (rel q b)) (py (rel q b)) (px (rel q c)) (py (rel q c))) as T. cbn zeta in T. rewrite !D in T. rewrite !at0_rel in T.
  rewrite <- T.
  - unfold esum. cbn [last xsum]. rewrite xorb_false_r. rewrite !rc_ray.
    assert (D' : forall u v, det (rel q u) (rel q v) = orient2d u v q) by (intros u v; unfold det, rel, orient2d, px, py; cbn [fst snd]; ring). rewrite !D'. unfold rel, py. cbn [snd]. reflexivity.
  - replace (orient2d b c q + orient2d c a q + orient2d a b q) with (orient2d a b c) by (unfold orient2d; ring). exact S.
  - intros K. apply B. exists (a, b). split; [cbn; auto|exact K].
  - intros K. apply B. exists (b, c). split; [cbn; auto|exact K].
  - intros K. apply B. exists (c, a). split; [cbn; auto|exact K].
Qed.
