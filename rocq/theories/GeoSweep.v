(** Moving the point of the point-in-polygon test: the parity changes with the number of edges crossed. *)
From Coq Require Import List Reals Lra Lia Bool.
From Verif Require Import GeoModel GeoSpec GeoSeg GeoPip GeoStrip.
Import ListNotations.
Open Scope R_scope.

Lemma rc_ray q u v : rc q u v = ray (py u - py q) (py v - py q) (det (rel q u) (rel q v)).
Proof. unfold rc. rewrite rcross_det. reflexivity. Qed.
Lemma ray_scale k uy vy d : 0 < k -> ray uy vy d = ray uy vy (k * d).
Proof.
  intros K. unfold ray. destruct (ltb 0 uy), (ltb 0 vy); cbn [xorb andb]; try reflexivity; apply ltb_iff; split; intros; nra.
Qed.

Lemma conv_lt a b t m : 0 <= t <= 1 -> a < m -> b < m -> (1 - t) * a + t * b < m.
Proof. intros T A B. destruct (Req_EM_T t 0) as [->|]; [lra|]. assert (0 < t * (m - b)) by (apply Rmult_lt_0_compat; lra). assert (0 <= (1 - t) * (m - a)) by (apply Rmult_le_pos; lra). lra. Qed.
Lemma conv_gt a b t m : 0 <= t <= 1 -> m < a -> m < b -> m < (1 - t) * a + t * b.
Proof. intros T A B. destruct (Req_EM_T t 0) as [->|]; [lra|]. assert (0 < t * (b - m)) by (apply Rmult_lt_0_compat; lra). assert (0 <= (1 - t) * (a - m)) by (apply Rmult_le_pos; lra). lra. Qed.
Lemma mixed_t a b : (0 < a /\ b <= 0) \/ (a <= 0 /\ 0 < b) -> 0 <= a / (a - b) <= 1.
Proof.
  intros [[A B]|[A B]].
  - split; [apply Rmult_le_pos; [lra|left; apply Rinv_0_lt_compat; lra]|]. apply Rmult_le_reg_r with (a - b); [lra|]. unfold Rdiv. rewrite Rmult_assoc, Rinv_l by lra. lra.
  - replace (a / (a - b)) with ((- a) / (b - a)) by (field; lra). split; [apply Rmult_le_pos; [lra|left; apply Rinv_0_lt_compat; lra]|]. apply Rmult_le_reg_r with (b - a); [lra|]. unfold Rdiv. rewrite Rmult_assoc, Rinv_l by lra. lra.
Qed.

Section Up.
Variables q r u v : vec2.
Let h := py r - py q.
Let k := px r - px q.
Hypothesis Hh : 0 < h.
Let X (p : vec2) := h * (px p - px q) - k * (py p - py q).
Let Y (p : vec2) := py p - py q.
Hypothesis Nq : ~ on_segment u v q.
Hypothesis Nr : ~ on_segment u v r.
Hypothesis Nu : ~ on_segment q r u.
Hypothesis Nv : ~ on_segment q r v.

Let da := X u * Y v - Y u * X v.
Let db := X u * (Y v - h) - (Y u - h) * X v.

Lemma up_rc_q : rc q u v = ray (Y u) (Y v) da.
Proof. rewrite rc_ray, (ray_scale h) by exact Hh. f_equal. unfold da, X, Y, det, rel, k, h, px, py. cbn [fst snd]. ring. Qed.
Lemma up_rc_r : rc r u v = ray (Y u - h) (Y v - h) db.
Proof. rewrite rc_ray, (ray_scale h) by exact Hh. unfold Y, h. f_equal; [ring|ring|]. unfold db, X, Y, det, rel, k, h, px, py. cbn [fst snd]. ring. Qed.

Lemma X_at a b t : X (at2 a b t) = (1 - t) * X a + t * X b.
Proof. unfold X, at2, px, py. cbn [fst snd]. ring. Qed.
Lemma Y_at a b t : Y (at2 a b t) = (1 - t) * Y a + t * Y b.
Proof. unfold Y, at2, px, py. cbn [fst snd]. ring. Qed.
Lemma XY_inj a b : X a = X b -> Y a = Y b -> a = b.
Proof.
  intros EX EY. destruct a as [ax ay], b as [bx by_]. unfold X, Y, px, py in *. cbn [fst snd] in *. assert (ay = by_) by lra. subst by_. f_equal.
  apply Rmult_eq_reg_l with h; [|lra]. lra.
Qed.
Lemma XY_q : X q = 0 /\ Y q = 0. Proof. unfold X, Y. split; ring. Qed.
Lemma XY_r : X r = 0 /\ Y r = h. Proof. unfold X, Y, h, k. split; ring. Qed.

(** a point of the line q r *)
Lemma on_qr p : X p = 0 -> 0 <= Y p <= h -> on_segment q r p.
Proof.
  intros Xp Yp. exists (Y p / h). split.
  - split; [apply Rmult_le_pos; [lra|left; apply Rinv_0_lt_compat, Hh]|]. apply Rmult_le_reg_r with h; [exact Hh|]. unfold Rdiv. rewrite Rmult_assoc, Rinv_l by lra. lra.
  - apply XY_inj.
    + rewrite X_at. rewrite (proj1 XY_q), (proj1 XY_r), Xp. ring.
    + rewrite Y_at. rewrite (proj2 XY_q), (proj2 XY_r). field. lra.
Qed.
Lemma qr_on p : on_segment q r p -> X p = 0 /\ 0 <= Y p <= h.
Proof. intros (t & T & ->). rewrite X_at, Y_at, (proj1 XY_q), (proj1 XY_r), (proj2 XY_q), (proj2 XY_r). split; [ring|]. split; nra. Qed.

(** where an edge meets the line q r *)
Lemma meet_line : X u - X v <> 0 -> let t := X u / (X u - X v) in X (at2 u v t) = 0 /\ Y (at2 u v t) = da / (X u - X v) /\ Y (at2 u v t) - h = db / (X u - X v).
Proof. intros D t. rewrite X_at, Y_at. unfold t, da, db. repeat split; field; exact D. Qed.
Lemma mixed_nonzero : (0 < X u /\ X v <= 0 \/ X u <= 0 /\ 0 < X v) -> da <> 0 /\ db <> 0.
Proof.
  intros M. assert (D : X u - X v <> 0) by lra. destruct (meet_line D) as (E1 & E2 & E3). pose proof (mixed_t _ _ M) as T. split; intros Z.
  - apply Nq. exists (X u / (X u - X v)). split; [exact T|]. symmetry. apply XY_inj; [rewrite E1; symmetry; apply XY_q|]. rewrite E2, Z, (proj2 XY_q). field. exact D.
  - apply Nr. exists (X u / (X u - X v)). split; [exact T|]. symmetry. apply XY_inj; [rewrite E1; symmetry; apply XY_r|]. rewrite (proj2 XY_r). assert (db / (X u - X v) = 0) by (rewrite Z; field; exact D). lra.
Qed.

Lemma strip_x_common : strip_x (X u) (X v) da db = true <-> exists x, common q r u v x.
Proof.
  unfold strip_x. rewrite orb_true_iff, !andb_true_iff, !ltb_true, !leb_true. split.
  - intros M. assert (D : X u - X v <> 0) by lra. destruct (meet_line D) as (E1 & E2 & E3).
    exists (at2 u v (X u / (X u - X v))). split.
    + apply on_qr; [exact E1|].
      assert (S : 0 <= da / (X u - X v) /\ db / (X u - X v) <= 0).
      { destruct M as [(((A & B) & C) & F)|(((A & B) & C) & F)].
        - assert (0 < / (X u - X v)) by (apply Rinv_0_lt_compat; lra). unfold Rdiv. split; nra.
        - assert (/ (X u - X v) < 0) by (apply Rinv_lt_0_compat; lra). unfold Rdiv. split; nra. }
      lra.
    + exists (X u / (X u - X v)). split; [apply mixed_t; lra|reflexivity].
  - intros (x & Sq & (t & T & E)). apply qr_on in Sq. rewrite E in Sq. destruct Sq as [SX SY].
    assert (Hu : X u = 0 -> ~ (0 <= Y u <= h)) by (intros Z Z'; apply Nu, on_qr; assumption).
    assert (Hv : X v = 0 -> ~ (0 <= Y v <= h)) by (intros Z Z'; apply Nv, on_qr; assumption).
    rewrite X_at in SX. rewrite Y_at in SY.
    assert (Zu : X u <> 0).
    { intros Z. destruct (Req_EM_T (X v) 0) as [Z'|Z'].
      - (* the whole edge is on the line *)
        specialize (Hu Z). specialize (Hv Z').
        assert (S : Y u < 0 /\ h < Y v \/ Y v < 0 /\ h < Y u). { destruct (Rlt_dec (Y u) 0); [left; split; [lra|]|right; split; [|lra]].
          - destruct (Rlt_dec h (Y v)); [assumption|]. exfalso. assert (Y v < 0) by lra. pose proof (conv_lt (Y u) (Y v) t 0 T). lra.
          - assert (h < Y u) by lra. destruct (Rlt_dec (Y v) 0); [assumption|]. exfalso. assert (h < Y v) by lra. pose proof (conv_gt (Y u) (Y v) t h T). lra. }
        apply Nq. exists (Y u / (Y u - Y v)). assert (D : Y u - Y v <> 0) by lra. split; [apply mixed_t; lra|]. apply XY_inj; [rewrite X_at, Z, Z', (proj1 XY_q); ring|rewrite Y_at, (proj2 XY_q); field; exact D].
      - assert (t = 0). { apply Rmult_eq_reg_r with (X v); [|exact Z']. rewrite Z in SX. lra. } subst t. apply (Hu Z). lra. }
    assert (Zv : X v <> 0).
    { intros Z. assert (t = 1). { assert (1 - t = 0); [|lra]. apply Rmult_eq_reg_r with (X u); [|exact Zu]. rewrite Z in SX. lra. } subst t. apply (Hv Z). lra. }
    assert (Mx : (0 < X u /\ X v < 0) \/ (X u < 0 /\ 0 < X v)).
    { destruct (Rlt_dec 0 (X u)), (Rlt_dec 0 (X v)); try lra; exfalso; [pose proof (conv_gt (X u) (X v) t 0 T)|pose proof (conv_lt (X u) (X v) t 0 T)]; lra. }
    assert (Ea : da = ((1 - t) * Y u + t * Y v) * (X u - X v)).
    { unfold da. assert (K : t * (X u - X v) = X u) by lra. replace (((1 - t) * Y u + t * Y v) * (X u - X v)) with (Y u * (X u - X v - t * (X u - X v)) + Y v * (t * (X u - X v))) by ring. rewrite K. ring. }
    assert (Eb : db = ((1 - t) * Y u + t * Y v - h) * (X u - X v)).
    { replace (((1 - t) * Y u + t * Y v - h) * (X u - X v)) with (((1 - t) * Y u + t * Y v) * (X u - X v) - h * (X u - X v)) by ring. rewrite <- Ea. unfold da, db. ring. }
    rewrite Ea, Eb. set (y := (1 - t) * Y u + t * Y v) in *. destruct Mx as [[A B]|[A B]]; [left|right]; repeat split; try assumption; nra.
Qed.

Lemma up_edge : xorb (xorb (rc q u v) (rc r u v)) (strip_x (X u) (X v) da db) = xorb (strip_in h (X u) (Y u)) (strip_in h (X v) (Y v)).
Proof.
  rewrite up_rc_q, up_rc_r. unfold da, db. apply strip; [exact Hh| | |].
  - exact mixed_nonzero.
  - intros [Z Z']. apply Nu, on_qr; assumption.
  - intros [Z Z']. apply Nv, on_qr; assumption.
Qed.
End Up.

(** q and r at the same height *)
Section Level.
Variables q r u v : vec2.
Hypothesis Hh : py q = py r.
Hypothesis Nq : ~ on_segment u v q.
Hypothesis Nr : ~ on_segment u v r.
Hypothesis Nu : ~ on_segment q r u.
Hypothesis Nv : ~ on_segment q r v.

Let du := py u - py q.
Let dv := py v - py q.
Let da := det (rel q u) (rel q v).
Let db := det (rel r u) (rel r v).

Lemma on_level p : on_segment q r p <-> py p = py q /\ within (px q) (px r) (px p).
Proof. rewrite on_segment_iff. unfold orient2d. rewrite <- Hh. unfold within. split; [intros (A & B & C); split; [lra|exact B]|]. intros [E B]. rewrite E. split; [ring|]. split; [exact B|lra]. Qed.

Lemma level_point : du - dv <> 0 -> let p := at2 u v (du / (du - dv)) in py p = py q /\ px p = px q - da / (du - dv) /\ px p = px r - db / (du - dv).
Proof.
  intros D p. unfold p, da, db, det, rel, at2, px, py in *. cbn [fst snd] in *. unfold du, dv in *. unfold px, py in *.
  rewrite <- Hh. repeat split; field; intros Z; apply D; lra.
Qed.
Lemma level_nonzero : (0 < du /\ dv <= 0 \/ du <= 0 /\ 0 < dv) -> da <> 0 /\ db <> 0.
Proof.
  intros M. assert (D : du - dv <> 0) by lra. destruct (level_point D) as (E1 & E2 & E3). pose proof (mixed_t _ _ M) as T.
  split; intros Z; rewrite Z in *; [apply Nq|apply Nr]; exists (du / (du - dv)); (split; [exact T|]); (rewrite (surjective_pairing (at2 u v _)), surjective_pairing at 1); change (fst (at2 u v (du / (du - dv)))) with (px (at2 u v (du / (du - dv)))); change (snd (at2 u v (du / (du - dv)))) with (py (at2 u v (du / (du - dv)))).
  - rewrite E1, E2. unfold px, py. f_equal. field. exact D.
  - rewrite E1, E3, Hh. unfold px, py. f_equal. field. exact D.
Qed.

Lemma xorb_signs : da <> 0 -> db <> 0 -> (xorb (ltb da 0) (ltb db 0) = true <-> (da < 0 /\ 0 < db \/ 0 < da /\ db < 0)) /\ (xorb (ltb 0 da) (ltb 0 db) = true <-> (da < 0 /\ 0 < db \/ 0 < da /\ db < 0)).
Proof.
  intros A B. destruct (ltb_spec da 0) as [[-> ?]|[-> ?]], (ltb_spec db 0) as [[-> ?]|[-> ?]], (ltb_spec 0 da) as [[-> ?]|[-> ?]], (ltb_spec 0 db) as [[-> ?]|[-> ?]]; cbn [xorb]; split; split; intros; try discriminate; try reflexivity; lra.
Qed.

Lemma level_signs : (0 < du /\ dv <= 0 \/ du <= 0 /\ 0 < dv) -> ((exists x, common q r u v x) <-> (da < 0 /\ 0 < db \/ 0 < da /\ db < 0)).
Proof.
  intros M. assert (D : du - dv <> 0) by lra. destruct (level_point D) as (E1 & E2 & E3). pose proof (mixed_t _ _ M) as T. destruct (level_nonzero M) as [Na Nb].
  assert (W : (exists x, common q r u v x) <-> within (px q) (px r) (px (at2 u v (du / (du - dv))))).
  { split.
    - intros (x & Sq & (t & Tt & E)). apply on_level in Sq. destruct Sq as [Sy Sx]. rewrite E in *.
      assert (t = du / (du - dv)). { apply Rmult_eq_reg_r with (du - dv); [|exact D]. unfold Rdiv. rewrite Rmult_assoc, Rinv_l by exact D. unfold at2, py in Sy. cbn [snd] in Sy. unfold du, dv, py. lra. } subst t. exact Sx.
    - intros Wi. exists (at2 u v (du / (du - dv))). split; [apply on_level; auto|exists (du / (du - dv)); auto]. }
  rewrite W. unfold within.
  assert (R1 : px q <= px (at2 u v (du / (du - dv))) <-> da / (du - dv) <= 0) by (rewrite E2; split; intros; lra).
  assert (R2 : px (at2 u v (du / (du - dv))) <= px q <-> 0 <= da / (du - dv)) by (rewrite E2; split; intros; lra).
  assert (R3 : px r <= px (at2 u v (du / (du - dv))) <-> db / (du - dv) <= 0) by (rewrite E3; split; intros; lra).
  assert (R4 : px (at2 u v (du / (du - dv))) <= px r <-> 0 <= db / (du - dv)) by (rewrite E3; split; intros; lra).
  rewrite R1, R2, R3, R4. clear R1 R2 R3 R4 E1 E2 E3 T W.
  destruct M as [[M1 M2]|[M1 M2]].
  - destruct (div_sign_pos da (du - dv)) as [A1 A2]; [lra|]. destruct (div_sign_pos db (du - dv)) as [B1 B2]; [lra|]. split; intros K.
    + destruct (Rtotal_order da 0) as [?|[?|?]], (Rtotal_order db 0) as [?|[?|?]]; try contradiction; lra.
    + destruct K as [[K1 K2]|[K1 K2]]; [apply A2 in K1; apply B1 in K2|apply A1 in K1; apply B2 in K2]; lra.
  - destruct (div_sign_neg da (du - dv)) as [A1 A2]; [lra|]. destruct (div_sign_neg db (du - dv)) as [B1 B2]; [lra|]. split; intros K.
    + destruct (Rtotal_order da 0) as [?|[?|?]], (Rtotal_order db 0) as [?|[?|?]]; try contradiction; lra.
    + destruct K as [[K1 K2]|[K1 K2]]; [apply A1 in K1; apply B2 in K2|apply A2 in K1; apply B1 in K2]; lra.
Qed.

Lemma level_edge : xorb (rc q u v) (rc r u v) = true <-> exists x, common q r u v x.
Proof.
  rewrite !rc_ray. rewrite <- Hh. fold du dv da db. unfold ray.
  destruct (ltb_spec 0 du) as [[-> U]|[-> U]], (ltb_spec 0 dv) as [[-> V]|[-> V]]; cbn [xorb andb].
  - split; [discriminate|]. intros (x & Sq & (t & T & E)). apply on_level in Sq. destruct Sq as [Sy _]. rewrite E in Sy. exfalso.
    pose proof (conv_gt du dv t 0 T U V) as K. unfold at2, py in Sy. cbn [snd] in Sy. unfold du, dv, py in K. lra.
  - destruct level_nonzero as [Na Nb]; [lra|]. rewrite (proj1 (xorb_signs Na Nb)). symmetry. apply level_signs. lra.
  - destruct level_nonzero as [Na Nb]; [lra|]. rewrite (proj2 (xorb_signs Na Nb)). symmetry. apply level_signs. lra.
  - split; [discriminate|]. intros (x & Sq & (t & T & E)). exfalso. pose proof Sq as Sq'. apply on_level in Sq. destruct Sq as [Sy Sx]. rewrite E in Sy.
    assert (K : (1 - t) * du + t * dv = 0) by (unfold at2, py in Sy; cbn [snd] in Sy; unfold du, dv, py; lra).
    destruct (Req_EM_T du 0) as [Zu|Zu], (Req_EM_T dv 0) as [Zv|Zv].
    + assert (Hu : ~ within (px q) (px r) (px u)) by (intros W; apply Nu, on_level; split; [unfold du in Zu; lra|exact W]).
      assert (Hv : ~ within (px q) (px r) (px v)) by (intros W; apply Nv, on_level; split; [unfold dv in Zv; lra|exact W]).
      apply Nq. apply on_segment_iff. split; [|split].
      * unfold orient2d. unfold du, dv in *. replace (py u) with (py q) by lra. replace (py v) with (py q) by lra. ring.
      * assert (W : within (px u) (px v) (px x)) by (rewrite E; unfold at2, px, within; cbn [fst]; destruct (mid_le (fst u) (fst v) t T); destruct (Rle_dec (fst u) (fst v)); lra).
        unfold within in *. clear - Hu Hv W Sx. destruct (Rle_dec (px q) (px r)), (Rle_dec (px u) (px v)); lra.
      * unfold within, du, dv in *. lra.
    + assert (t = 0) by (apply Rmult_eq_reg_r with dv; [rewrite Zu in K; lra|exact Zv]). subst t. apply Nu. rewrite at2_0 in E. rewrite <- E. exact Sq'.
    + assert (1 - t = 0) by (apply Rmult_eq_reg_r with du; [rewrite Zv in K; lra|exact Zu]). assert (t = 1) by lra. subst t. apply Nv. rewrite at2_1 in E. rewrite <- E. exact Sq'.
    + pose proof (conv_lt du dv t 0 T). lra.
Qed.
End Level.

(** ** the whole polygon *)
Lemma common_swap q r u v x : common q r u v x <-> common r q u v x.
Proof.
  assert (K : forall a b x : vec2, on_segment a b x -> on_segment b a x) by (intros a b y (t & T & ->); exists (1 - t); split; [lra|]; unfold at2; f_equal; ring).
  unfold common. split; intros [A B]; split; auto.
Qed.
Lemma seg_swap a b x : on_segment a b x -> on_segment b a x.
Proof. intros (t & T & ->); exists (1 - t); split; [lra|]; unfold at2; f_equal; ring. Qed.

Lemma parity_ext {A} (P Q : A -> Prop) l b : (forall x, In x l -> (P x <-> Q x)) -> parity P l b -> parity Q l b.
Proof.
  intros E H. induction H as [|x l b X H IH|x l b X H IH]; [constructor| |].
  - constructor; [apply E; [left; reflexivity|exact X]|apply IH; intros; apply E; right; assumption].
  - apply par_no; [rewrite <- E by (left; reflexivity); exact X|apply IH; intros; apply E; right; assumption].
Qed.

Lemma flip_up q r ps : py q < py r -> ~ on_boundary q ps -> ~ on_boundary r ps -> (forall p, In p ps -> ~ on_segment q r p) ->
  parity (fun e => exists x, common q r (fst e) (snd e) x) (edges_of ps) (xorb (esum (rc q) ps) (esum (rc r) ps)).
Proof.
  intros Hh Bq Br Nv.
  set (h := py r - py q). set (k := px r - px q). set (X := fun p : vec2 => h * (px p - px q) - k * (py p - py q)). set (Y := fun p : vec2 => py p - py q).
  set (f := fun u v => strip_x (X u) (X v) (X u * Y v - Y u * X v) (X u * (Y v - h) - (Y u - h) * X v)).
  assert (Hp : 0 < h) by (unfold h; lra).
  assert (S : esum (fun u v => xorb (xorb (rc q u v) (rc r u v)) (f u v)) ps = false).
  { rewrite (esum_ext _ (fun u v => xorb (strip_in h (X u) (Y u)) (strip_in h (X v) (Y v)))); [apply (esum_cob (fun u => strip_in h (X u) (Y u)))|].
    intros u v I. destruct (edges_in_l ps u v I) as [Iu Iv]. apply (up_edge q r u v Hp); auto.
    - intros K. apply Bq. exists (u, v). auto.
    - intros K. apply Br. exists (u, v). auto. }
  rewrite !esum_xor in S. assert (E : xorb (esum (rc q) ps) (esum (rc r) ps) = esum f ps). { destruct (esum (rc q) ps), (esum (rc r) ps), (esum f ps); auto; discriminate. }
  rewrite E. apply esum_parity. intros u v I. destruct (edges_in_l ps u v I) as [Iu Iv]. apply (strip_x_common q r u v Hp); auto.
  intros K. apply Bq. exists (u, v). auto.
Qed.

Lemma flip q r ps : ~ on_boundary q ps -> ~ on_boundary r ps -> (forall p, In p ps -> ~ on_segment q r p) ->
  parity (fun e => exists x, common q r (fst e) (snd e) x) (edges_of ps) (xorb (esum (rc q) ps) (esum (rc r) ps)).
Proof.
  intros Bq Br Nv. destruct (Rtotal_order (py q) (py r)) as [H|[H|H]].
  - apply flip_up; assumption.
  - rewrite <- esum_xor. apply esum_parity. intros u v I. destruct (edges_in_l ps u v I) as [Iu Iv]. apply level_edge; auto.
    + intros K. apply Bq. exists (u, v). auto.
    + intros K. apply Br. exists (u, v). auto.
  - rewrite xorb_comm. eapply parity_ext; [|apply flip_up; auto].
    + intros e _. split; intros (x & K); exists x; apply common_swap; exact K.
    + intros p P K. apply (Nv p P), seg_swap, K.
Qed.
