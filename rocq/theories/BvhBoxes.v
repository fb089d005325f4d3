(** Face boxes, enlargement and perturbation. *)
From Coq Require Import List ZArith Lia Bool Permutation.
From Coq Require Import ZifyBool.
From Verif Require Import Vec VecLemmas BvhModel BvhSpec BvhProofs BvhTraverse.
Import ListNotations.
Open Scope Z_scope.

(** ** Rounding to 53 bits *)

Definition rexp (a : Z) : Z := Z.max 0 (Z.log2 a + 1 - 53).
Definition rdiv (a w : Z) : Z :=
  let q := a / w in let r := a mod w in
  if 2 * r <? w then q else if w <? 2 * r then q + 1 else if Z.even q then q else q + 1.

Lemma fl64_eq z : fl64 z = Z.sgn z * (rdiv (Z.abs z) (2 ^ rexp (Z.abs z)) * 2 ^ rexp (Z.abs z)).
Proof. reflexivity. Qed.

Lemma rdiv_bounds a w : 0 < w -> 0 <= a -> a / w <= rdiv a w <= a / w + 1.
Proof.
  intros Hw Ha. unfold rdiv. destruct (2 * (a mod w) <? w); [lia|].
  destruct (w <? 2 * (a mod w)); [lia|]. destruct (Z.even (a / w)); lia.
Qed.

Lemma rdiv_mono a b w : 0 < w -> 0 <= a <= b -> rdiv a w <= rdiv b w.
Proof.
  intros Hw H.
  pose proof (Z.div_le_mono a b w Hw ltac:(lia)) as D.
  destruct (Z_lt_le_dec (a / w) (b / w)) as [L | L].
  - pose proof (rdiv_bounds a w Hw ltac:(lia)). pose proof (rdiv_bounds b w Hw ltac:(lia)). lia.
  - assert (E : a / w = b / w) by lia.
    pose proof (Z.div_mod a w ltac:(lia)) as Ma. pose proof (Z.div_mod b w ltac:(lia)) as Mb.
    rewrite E in Ma. unfold rdiv. rewrite E.
    assert (a mod w <= b mod w) by lia.
    destruct (Z.ltb_spec (2 * (a mod w)) w); destruct (Z.ltb_spec (2 * (b mod w)) w); try lia;
      destruct (Z.ltb_spec w (2 * (a mod w))); destruct (Z.ltb_spec w (2 * (b mod w))); try lia;
      destruct (Z.even (b / w)); lia.
Qed.

Lemma rexp_mono a b : a <= b -> rexp a <= rexp b.
Proof. intros H. unfold rexp. pose proof (Z.log2_le_mono a b H). lia. Qed.

Lemma rexp_nonneg a : 0 <= rexp a.
Proof. unfold rexp. lia. Qed.

(** the rounded magnitude stays within the binade (or reaches its upper end) *)
Lemma round_lo a : 0 < a -> 2 ^ Z.log2 a <= rdiv a (2 ^ rexp a) * 2 ^ rexp a.
Proof.
  intros Ha. pose proof (rexp_nonneg a) as R. pose proof (Z.log2_spec a Ha) as [Lo _].
  pose proof (Z.log2_nonneg a) as N.
  assert (W : 0 < 2 ^ rexp a) by (apply Z.pow_pos_nonneg; lia).
  assert (Rl : rexp a <= Z.log2 a) by (unfold rexp; lia).
  assert (E : 2 ^ Z.log2 a = 2 ^ (Z.log2 a - rexp a) * 2 ^ rexp a).
  { rewrite <- Z.pow_add_r by lia. f_equal. lia. }
  rewrite E. apply Z.mul_le_mono_nonneg_r; [lia|].
  pose proof (rdiv_bounds a (2 ^ rexp a) W ltac:(lia)) as [B _].
  eapply Z.le_trans; [|exact B]. apply Z.div_le_lower_bound; lia.
Qed.

Lemma round_hi a : 0 < a -> rdiv a (2 ^ rexp a) * 2 ^ rexp a <= 2 ^ (Z.log2 a + 1).
Proof.
  intros Ha. pose proof (rexp_nonneg a) as R. pose proof (Z.log2_spec a Ha) as [_ Hi].
  rewrite <- Z.add_1_r in Hi. pose proof (Z.log2_nonneg a) as N.
  assert (W : 0 < 2 ^ rexp a) by (apply Z.pow_pos_nonneg; lia).
  assert (Rl : rexp a <= Z.log2 a) by (unfold rexp; lia).
  assert (E : 2 ^ (Z.log2 a + 1) = 2 ^ (Z.log2 a + 1 - rexp a) * 2 ^ rexp a).
  { rewrite <- Z.pow_add_r by lia. f_equal. lia. }
  rewrite E. apply Z.mul_le_mono_nonneg_r; [lia|].
  pose proof (rdiv_bounds a (2 ^ rexp a) W ltac:(lia)) as [_ B].
  assert (a / 2 ^ rexp a < 2 ^ (Z.log2 a + 1 - rexp a)); [|lia].
  apply Z.div_lt_upper_bound; [lia|]. rewrite Z.mul_comm. rewrite <- E. exact Hi.
Qed.

Lemma rmag_mono a b : 0 <= a <= b ->
  rdiv a (2 ^ rexp a) * 2 ^ rexp a <= rdiv b (2 ^ rexp b) * 2 ^ rexp b.
Proof.
  intros H. pose proof (rexp_nonneg a) as Ra. pose proof (rexp_nonneg b) as Rb.
  assert (Wb : 0 < 2 ^ rexp b) by (apply Z.pow_pos_nonneg; lia).
  destruct (Z.eq_dec a 0) as [-> | Na].
  { assert (rdiv 0 (2 ^ rexp 0) = 0) as -> by reflexivity.
    pose proof (rdiv_bounds b (2 ^ rexp b) Wb ltac:(lia)).
    pose proof (Z.div_pos b (2 ^ rexp b) ltac:(lia) Wb). nia. }
  destruct (Z.eq_dec (Z.log2 a) (Z.log2 b)) as [E | N].
  - assert (rexp a = rexp b) as -> by (unfold rexp; lia).
    apply Z.mul_le_mono_nonneg_r; [lia|]. apply rdiv_mono; lia.
  - pose proof (Z.log2_le_mono a b ltac:(lia)).
    eapply Z.le_trans; [apply round_hi; lia|].
    eapply Z.le_trans; [|apply round_lo; lia].
    apply Z.pow_le_mono_r; lia.
Qed.

Lemma rmag_nonneg a : 0 <= a -> 0 <= rdiv a (2 ^ rexp a) * 2 ^ rexp a.
Proof.
  intros H. pose proof (rmag_mono 0 a ltac:(lia)) as M.
  change (rdiv 0 (2 ^ rexp 0) * 2 ^ rexp 0) with 0 in M. exact M.
Qed.

Lemma fl64_mono x y : x <= y -> fl64 x <= fl64 y.
Proof.
  intros H. rewrite !fl64_eq.
  pose proof (rmag_nonneg (Z.abs x) ltac:(lia)) as Px.
  pose proof (rmag_nonneg (Z.abs y) ltac:(lia)) as Py.
  destruct (Z_lt_le_dec x 0) as [Lx | Lx].
  - destruct (Z_lt_le_dec y 0) as [Ly | Ly].
    + rewrite !Z.sgn_neg by lia. pose proof (rmag_mono (Z.abs y) (Z.abs x) ltac:(lia)). lia.
    + rewrite (Z.sgn_neg x) by lia. pose proof (Z.sgn_nonneg y). nia.
  - pose proof (rmag_mono (Z.abs x) (Z.abs y) ltac:(lia)).
    destruct (Z.eq_dec x 0) as [-> | Nx]; [cbn [Z.sgn]; pose proof (Z.sgn_nonneg y); nia|].
    rewrite !Z.sgn_pos by lia. lia.
Qed.

Lemma fl64_id_small z : Z.abs z < 2 ^ 53 -> fl64 z = z.
Proof.
  intros H. rewrite fl64_eq.
  assert (rexp (Z.abs z) = 0) as ->.
  { unfold rexp. destruct (Z.eq_dec (Z.abs z) 0) as [-> | N]; [reflexivity|].
    assert (Z.log2 (Z.abs z) < 53) by (apply Z.log2_lt_pow2; lia). lia. }
  change (2 ^ 0) with 1. unfold rdiv. rewrite Z.mod_1_r, Z.div_1_r.
  change (2 * 0 <? 1) with true. cbv iota. lia.
Qed.

Lemma fl64_dbl_max : fl64 dbl_max = dbl_max.
Proof. vm_compute. reflexivity. Qed.
Lemma fl64_neg_dbl_max : fl64 (- dbl_max) = - dbl_max.
Proof. vm_compute. reflexivity. Qed.

Lemma fl64_in_range z : - dbl_max <= z <= dbl_max -> - dbl_max <= fl64 z <= dbl_max.
Proof.
  intros H. rewrite <- fl64_dbl_max at 2. rewrite <- fl64_neg_dbl_max.
  split; apply fl64_mono; lia.
Qed.

Lemma fl64_zero : fl64 0 = 0.
Proof. reflexivity. Qed.

(** ** Boxes of faces *)

(** points as degenerate boxes *)
Definition pbox (p : vec3) : box := Box p p.
Lemma expand_pt_box b p : expand_pt b p = expand_box b (pbox p).
Proof. reflexivity. Qed.

Lemma fold_expand_lub pts b :
  lub (fold_left expand_pt pts b) (fun x => x = b \/ exists p, In p pts /\ x = pbox p).
Proof.
  revert b. induction pts as [|p r IH]; intros b; cbn [fold_left].
  - split.
    + intros x [-> | (p & [] & _)]. apply sub_refl.
    + intros c H. apply H. left. reflexivity.
  - destruct (IH (expand_pt b p)) as [U L]. rewrite expand_pt_box in *. split.
    + intros x [-> | (q & [<- | Hq] & ->)].
      * eapply sub_trans; [apply sub_expand_l | apply U; left; reflexivity].
      * eapply sub_trans; [apply (sub_expand_r b (pbox p)) | apply U; left; reflexivity].
      * apply U. right. eauto.
    + intros c H. apply L. intros x [-> | (q & Hq & ->)].
      * apply expand_lub; apply H; [left; reflexivity | right; exists p; split; [left; reflexivity | reflexivity]].
      * apply H. right. exists q. split; [right; exact Hq | reflexivity].
Qed.

Lemma in_box_sub p b : in_box p b <-> sub (pbox p) b.
Proof. unfold in_box, sub, vle, pbox; cbn [bmin bmax]. lia. Qed.

Lemma finite_default p : finite_pt p -> sub default_box (pbox p).
Proof.
  unfold finite_pt, sub, vle, pbox, default_box; cbn [vx vy vz bmin bmax]. lia.
Qed.

Lemma sub_contains a b : sub a b -> contains b a.
Proof. intros H p. rewrite !in_box_sub. intros Hp. eapply sub_trans; eauto. Qed.

Lemma contains_sub a b : proper_box a -> contains b a -> sub a b.
Proof.
  intros P H. unfold proper_box in P.
  assert (in_box (bmin a) b) as H1 by (apply H; unfold in_box; lia).
  assert (in_box (bmax a) b) as H2 by (apply H; unfold in_box; lia).
  unfold in_box in *. unfold sub, vle. lia.
Qed.

Lemma lub_proper b l :
  l <> [] -> (forall p, In p l -> finite_pt p) ->
  lub b (fun x => exists p, In p l /\ x = pbox p) -> proper_box b.
Proof.
  intros Hne Hf [U L]. destruct l as [|p r]; [congruence|].
  assert (Hp : sub (pbox p) b) by (apply U; exists p; split; [left; reflexivity | reflexivity]).
  assert (HM : sub b (Box (V3 (- dbl_max) (- dbl_max) (- dbl_max)) (V3 dbl_max dbl_max dbl_max))).
  { apply L. intros x (q & Hq & ->). specialize (Hf q Hq). unfold finite_pt in Hf.
    unfold sub, vle, pbox; cbn [bmin bmax vx vy vz]. lia. }
  unfold sub, vle, pbox in *; cbn [bmin bmax vx vy vz] in *. unfold proper_box. lia.
Qed.

Lemma face_hull_lub pts :
  pts <> [] -> (forall p, In p pts -> finite_pt p) ->
  lub (fold_left expand_pt pts default_box) (fun x => exists p, In p pts /\ x = pbox p).
Proof.
  intros Hne Hf. destruct (fold_expand_lub pts default_box) as [U L]. split.
  - intros x Hx. apply U. right. exact Hx.
  - intros c H. apply L. intros x [-> | Hx]; [|apply H; exact Hx].
    destruct pts as [|p r]; [congruence|].
    eapply sub_trans; [apply finite_default; apply Hf; left; reflexivity|].
    apply H. exists p. split; [left; reflexivity | reflexivity].
Qed.

Theorem face_box_hull pts :
  pts <> [] -> (forall p, In p pts -> finite_pt p) ->
  proper_box (face_box 0 default_box pts) /\ hull_of_points (face_box 0 default_box pts) pts.
Proof.
  intros Hne Hf. unfold face_box. change (0 <? 0) with false. cbv iota.
  pose proof (face_hull_lub pts Hne Hf) as H. split; [eapply lub_proper; eauto|].
  destruct H as [U L]. split.
  - intros p Hp. apply in_box_sub, U. exists p. auto.
  - intros c Hc. apply sub_contains, L. intros x (p & Hp & ->). apply in_box_sub. auto.
Qed.

(** ** Perturbation *)

Lemma sub_pt_enlarge eps d b p :
  0 <= eps -> bounded_by eps d -> sub (pbox p) b -> sub (pbox (perturb_pt d p)) (enlarge eps b).
Proof.
  intros He Hd H. unfold bounded_by in Hd.
  unfold sub, vle, pbox, perturb_pt, enlarge, fadd, fsub in *; cbn [bmin bmax vx vy vz] in *.
  repeat split; apply fl64_mono; lia.
Qed.

Lemma box_as_points b : proper_box b -> sub (pbox (bmin b)) b /\ sub (pbox (bmax b)) b.
Proof. unfold proper_box, sub, vle, pbox; cbn [bmin bmax]. lia. Qed.

Theorem perturbed_face_within pts eps d :
  0 < eps -> bounded_by eps d -> pts <> [] ->
  (forall p, In p pts -> finite_pt p) -> (forall p, In p pts -> finite_pt (perturb_pt d p)) ->
  contains (face_box eps default_box pts) (face_box 0 default_box (map (perturb_pt d) pts)).
Proof.
  intros He Hd Hne Hf Hf'.
  assert (Hne' : map (perturb_pt d) pts <> []) by (destruct pts; [congruence | discriminate]).
  destruct (face_box_hull (map (perturb_pt d) pts) Hne') as [_ [_ L]].
  { intros p Hp. apply in_map_iff in Hp. destruct Hp as (q & <- & Hq). auto. }
  apply L. intros p Hp. apply in_map_iff in Hp. destruct Hp as (q & <- & Hq).
  unfold face_box. destruct (Z.ltb_spec 0 eps); [|lia].
  apply in_box_sub. apply sub_pt_enlarge; [lia | exact Hd|].
  apply (proj1 (face_hull_lub pts Hne Hf)). exists q. auto.
Qed.

(** a box stays proper when enlarged without overflow *)
Lemma enlarge_proper eps b :
  0 <= eps -> proper_box b ->
  - dbl_max <= vx (bmin b) - eps -> - dbl_max <= vy (bmin b) - eps -> - dbl_max <= vz (bmin b) - eps ->
  vx (bmax b) + eps <= dbl_max -> vy (bmax b) + eps <= dbl_max -> vz (bmax b) + eps <= dbl_max ->
  proper_box (enlarge eps b).
Proof.
  intros He P A1 A2 A3 B1 B2 B3. unfold proper_box in *. unfold enlarge, fadd, fsub; cbn [bmin bmax vx vy vz].
  pose proof (fl64_mono (vx (bmin b) - eps) (vx (bmax b) + eps) ltac:(lia)).
  pose proof (fl64_mono (vy (bmin b) - eps) (vy (bmax b) + eps) ltac:(lia)).
  pose proof (fl64_mono (vz (bmin b) - eps) (vz (bmax b) + eps) ltac:(lia)).
  pose proof (fl64_in_range (vx (bmin b) - eps)). pose proof (fl64_in_range (vx (bmax b) + eps)).
  pose proof (fl64_in_range (vy (bmin b) - eps)). pose proof (fl64_in_range (vy (bmax b) + eps)).
  pose proof (fl64_in_range (vz (bmin b) - eps)). pose proof (fl64_in_range (vz (bmax b) + eps)).
  lia.
Qed.

(** ** Rebuilding on top of old boxes keeps the list conservative *)

Theorem rebuilt_box_conservative pts eps old :
  0 <= eps -> pts <> [] -> (forall p, In p pts -> finite_pt p) ->
  contains (face_box eps old pts) (face_box eps default_box pts).
Proof.
  intros He Hne Hf. unfold face_box.
  assert (S : sub (fold_left expand_pt pts default_box) (fold_left expand_pt pts old)).
  { apply (proj2 (face_hull_lub pts Hne Hf)). intros x Hx.
    apply (proj1 (fold_expand_lub pts old)). right. exact Hx. }
  destruct (Z.ltb_spec 0 eps); apply sub_contains; [|exact S].
  unfold sub, vle, enlarge, fadd, fsub in *; cbn [bmin bmax vx vy vz] in *.
  repeat split; apply fl64_mono; lia.
Qed.

Lemma face_boxes_aux_length eps old faces :
  length old = length faces -> length (face_boxes_aux eps old faces) = length faces.
Proof.
  revert old. induction faces as [|p fr IH]; intros [|o old] H; cbn in *; try lia.
  rewrite IH; lia.
Qed.

Lemma vresize_length {A} (v : list A) n d : length (vresize v n d) = n.
Proof. unfold vresize. rewrite app_length, firstn_length, repeat_length. lia. Qed.

Lemma face_boxes_length eps old faces : length (face_boxes eps old faces) = length faces.
Proof. unfold face_boxes. apply face_boxes_aux_length. apply vresize_length. Qed.

Lemma face_boxes_aux_nth eps old faces i pts o :
  nth_error faces i = Some pts -> nth_error old i = Some o ->
  nth_error (face_boxes_aux eps old faces) i = Some (face_box eps o pts).
Proof.
  revert old i. induction faces as [|p fr IH]; intros old i Hf Ho; [destruct i; discriminate|].
  destruct old as [|o' old]; [destruct i; discriminate|].
  destruct i as [|i]; cbn in *; [congruence | eauto].
Qed.

(** first build: no old boxes *)
Lemma face_boxes_fresh eps faces i pts :
  vget faces i = Some pts -> vget (face_boxes eps [] faces) i = Some (face_box eps default_box pts).
Proof.
  unfold vget. destruct (i <? 0); [discriminate|]. intros H.
  unfold face_boxes. eapply face_boxes_aux_nth; [exact H|].
  unfold vresize. cbn [length firstn]. rewrite firstn_nil. cbn [app]. rewrite Nat.sub_0_r.
  assert (Hl : (Z.to_nat i < length faces)%nat) by (apply nth_error_Some; congruence).
  rewrite nth_error_repeat by exact Hl. reflexivity.
Qed.
