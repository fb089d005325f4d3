(** Proofs for C77: the three vertices in a frame of the plane. *)
From Coq Require Import List Arith Bool Reals Lra Lia Psatz.
From Verif Require Import SectionModel SectionSpec SectionProofs.
Import ListNotations.
Open Scope R_scope.

(** The vector that is not parallel to the normal vector. *)
Lemma same_iff x y z x' y' z' : same (x, y, z) (x', y', z') = true <-> x = x' /\ y = y'.
Proof. cbn. rewrite andb_true_iff, !eqb_iff. tauto. Qed.
Lemma ltb_true x y : x < y -> ltb x y = true. Proof. unfold ltb. destruct Rlt_dec; [reflexivity|contradiction]. Qed.
Lemma ltb_false x y : y <= x -> ltb x y = false. Proof. unfold ltb. destruct Rlt_dec; [lra|reflexivity]. Qed.
Lemma largest_case n : largest n = 0%nat \/ largest n = 1%nat \/ largest n = 2%nat.
Proof. unfold largest. cbn [fold_left]. destruct (ltb (snd (0%nat, - huge)) (Rabs (comp n 0))); destruct (ltb _ (Rabs (comp n 1))); destruct (ltb _ (Rabs (comp n 2))); cbn; tauto. Qed.
Lemma largest_x : largest (-1, 0, 0) = 0%nat.
Proof. unfold largest. cbn [fold_left comp snd]. rewrite Rabs_R0. replace (Rabs (-1)) with 1 by (rewrite Rabs_left; lra). rewrite (ltb_true (- huge) 1) by (unfold huge; lra). cbn [snd]. rewrite (ltb_false 1 0) by lra. cbn [snd]. rewrite (ltb_false 1 0) by lra. reflexivity. Qed.
Lemma largest_y : largest (0, -1, 0) = 1%nat.
Proof. unfold largest. cbn [fold_left comp snd]. rewrite Rabs_R0. replace (Rabs (-1)) with 1 by (rewrite Rabs_left; lra). rewrite (ltb_true (- huge) 0) by (unfold huge; lra). cbn [snd]. rewrite (ltb_true 0 1) by lra. cbn [snd]. rewrite (ltb_false 1 0) by lra. reflexivity. Qed.

Definition bad (n : vec) : Prop := n = (-1, 0, 0) \/ n = (0, -1, 0).
Lemma other_bad n : bad n -> cr n (other_vector n) = (0, 0, 0).
Proof.
  assert (E : eqb 1 (-1) = false) by (apply eqb_no; lra).
  intros [-> | ->]; unfold other_vector; [rewrite largest_x|rewrite largest_y]; unfold same, unit; rewrite E; rewrite ?andb_false_r; cbn; unfold id_; veq; ring.
Qed.
Lemma other_good n : scalar n n = 1 -> ~ bad n -> cr n (other_vector n) <> (0, 0, 0).
Proof.
  intros N B. destruct n as [[x y] z]. unfold scalar in N. unfold other_vector.
  assert (Q : forall t, t * t = 1 -> t = 1 \/ t = -1) by (intros t T; assert (H : (t - 1) * (t + 1) = 0) by lra; apply Rmult_integral in H; destruct H; [left|right]; lra).
  destruct (largest_case (x, y, z)) as [L | [L | L]]; rewrite L; change (Nat.modulo (0 + 1) 3) with 1%nat; change (Nat.modulo (1 + 1) 3) with 2%nat; change (Nat.modulo (2 + 1) 3) with 0%nat; clear L; unfold unit.
  - destruct (same (1, 0, 0) (x, y, z)) eqn:S.
    + apply same_iff in S. destruct S as [<- <-]. cbn. unfold id_. intros E. injection E as E1 E2 E3. lra.
    + cbn [cross]. unfold id_. intros E. injection E as E1 E2 E3. assert (z = 0) by lra. assert (y = 0) by lra. subst y z. destruct (Q x ltac:(lra)) as [-> | ->].
      * pose proof (proj2 (same_iff 1 0 0 1 0 0) (conj eq_refl eq_refl)). congruence.
      * apply B. left. reflexivity.
  - destruct (same (0, 1, 0) (x, y, z)) eqn:S.
    + apply same_iff in S. destruct S as [<- <-]. cbn. unfold id_. intros E. injection E as E1 E2 E3. lra.
    + cbn [cross]. unfold id_. intros E. injection E as E1 E2 E3. assert (z = 0) by lra. assert (x = 0) by lra. subst x z. destruct (Q y ltac:(lra)) as [-> | ->].
      * pose proof (proj2 (same_iff 0 1 0 0 1 0) (conj eq_refl eq_refl)). congruence.
      * apply B. right. reflexivity.
  - destruct (same (0, 0, 1) (x, y, z)) eqn:S.
    + apply same_iff in S. destruct S as [<- <-]. cbn. unfold id_. intros E. injection E as E1 E2 E3. assert (z = 0) by lra. subst z. lra.
    + cbn [cross]. unfold id_. intros E. injection E as E1 E2 E3. assert (y = 0) by lra. assert (x = 0) by lra. subst x y.
      pose proof (proj2 (same_iff 0 0 1 0 0 z) (conj eq_refl eq_refl)). congruence.
Qed.

(** Mean and bounding box. *)
Definition sum (f : point -> R) (ps : list point) : R := fold_right Rplus 0 (map f ps).
Notation fx := (fun p : point => fst (fst p)).
Notation fy := (fun p : point => snd (fst p)).
Notation fz := (fun p : point => snd p).
Lemma sum_cons f p ps : sum f (p :: ps) = f p + sum f ps. Proof. reflexivity. Qed.
Lemma total_sum n vs : forall g, total (fold_left (gather id_ n) vs g) = ad (total g) (sum fx vs, sum fy vs, sum fz vs).
Proof.
  induction vs as [|[[x y] z] vs IH]; intros g.
  - cbn [fold_left]. destruct (total g) as [[a b] c]. cbn. unfold id_. veq; ring.
  - cbn [fold_left]. rewrite IH. cbn [gather total]. rewrite !sum_cons. destruct (total g) as [[a b] c]. cbn [add fst snd]. unfold id_. veq; ring.
Qed.
Lemma mean_eq n vs : vs <> [] -> div id_ (total (fold_left (gather id_ n) vs gather_start)) (INR (List.length vs)) = Some (mean vs).
Proof.
  intros N. assert (L : INR (List.length vs) <> 0) by (apply not_0_INR; destruct vs; [contradiction|discriminate]).
  rewrite total_sum. unfold div. rewrite eqb_no by exact L. unfold mean. cbn. unfold id_. rewrite !Rplus_0_l. reflexivity.
Qed.
Lemma box_fold n (f : point -> R) (k : forall a b, f (vmin a b) = Rmin (f a) (f b)) (k' : forall a b, f (vmax a b) = Rmax (f a) (f b)) vs : forall g,
  let g' := fold_left (gather id_ n) vs g in
  f (bbox_min g') <= f (bbox_min g) /\ f (bbox_max g) <= f (bbox_max g') /\
  (forall p, In p vs -> f (bbox_min g') <= f p <= f (bbox_max g')) /\ (f (bbox_min g') = f (bbox_min g) \/ exists p, In p vs /\ f (bbox_min g') = f p) /\ (f (bbox_max g') = f (bbox_max g) \/ exists p, In p vs /\ f (bbox_max g') = f p).
Proof.
  induction vs as [|p vs IH]; intros g.
  - cbn. repeat split; [lra|lra|contradiction|contradiction|left; reflexivity|left; reflexivity].
  - cbn [fold_left]. destruct (IH (gather id_ n g p)) as (A & B & C & D & E). set (g' := fold_left (gather id_ n) vs (gather id_ n g p)) in *. cbn [gather bbox_min bbox_max] in A, B, D, E. rewrite k in A, D. rewrite k' in B, E.
    pose proof (Rmin_l (f (bbox_min g)) (f p)). pose proof (Rmin_r (f (bbox_min g)) (f p)). pose proof (Rmax_l (f (bbox_max g)) (f p)). pose proof (Rmax_r (f (bbox_max g)) (f p)). cbn zeta. repeat split; try lra.
    + destruct H3 as [<-|I]; [lra|apply C in I; lra].
    + destruct H3 as [<-|I]; [lra|apply C in I; lra].
    + destruct D as [D|(q & I & D)]; [|right; exists q; split; [right; exact I|exact D]]. unfold Rmin in D. destruct Rle_dec; [left; exact D|right; exists p; split; [left; reflexivity|exact D]].
    + destruct E as [E|(q & I & E)]; [|right; exists q; split; [right; exact I|exact E]]. unfold Rmax in E. destruct Rle_dec; [right; exists p; split; [left; reflexivity|exact E]|left; exact E].
Qed.
(** All coordinates are at most 10000000000 in size. *)
Definition moderate (vs : list point) : Prop := forall p, In p vs -> Rabs (fst (fst p)) <= huge /\ Rabs (snd (fst p)) <= huge /\ Rabs (snd p) <= huge.
Lemma span_one (vs : list point) (f : point -> R) (a b l h : R) : vs <> [] ->
  (forall p, In p vs -> a <= f p <= b) -> (a = huge \/ exists p, In p vs /\ a = f p) -> (b = - huge \/ exists p, In p vs /\ b = f p) ->
  (exists p, In p vs /\ l = f p) -> (exists p, In p vs /\ h = f p) -> (forall p, In p vs -> l <= f p <= h) ->
  a <= l /\ h <= b /\ ((forall p, In p vs -> Rabs (f p) <= huge) -> a = l /\ b = h).
Proof.
  intros N AB A B (p & PI & PE) (q & QI & QE) LH. pose proof (AB p PI). pose proof (AB q QI). pose proof (LH p PI). pose proof (LH q QI). split; [lra|]. split; [lra|]. intros M. split.
  - destruct A as [A | (r & RI & RE)]; [|pose proof (LH r RI); lra]. pose proof (M p PI) as MP. unfold Rabs in MP. destruct Rcase_abs; lra.
  - destruct B as [B | (r & RI & RE)]; [|pose proof (LH r RI); lra]. pose proof (M q QI) as MQ. unfold Rabs in MQ. destruct Rcase_abs; lra.
Qed.
Lemma diag_box n vs l h : vs <> [] -> box_of vs l h ->
  let g := fold_left (gather id_ n) vs gather_start in
  distance2 l h <= distance2 (bbox_max g) (bbox_min g) /\ (moderate vs -> distance2 (bbox_max g) (bbox_min g) = distance2 l h).
Proof.
  intros N (X & Y & Z) g.
  destruct (box_fold n fx ltac:(intros [[? ?] ?] [[? ?] ?]; reflexivity) ltac:(intros [[? ?] ?] [[? ?] ?]; reflexivity) vs gather_start) as (_ & _ & X1 & X2 & X3).
  destruct (box_fold n fy ltac:(intros [[? ?] ?] [[? ?] ?]; reflexivity) ltac:(intros [[? ?] ?] [[? ?] ?]; reflexivity) vs gather_start) as (_ & _ & Y1 & Y2 & Y3).
  destruct (box_fold n fz ltac:(intros [[? ?] ?] [[? ?] ?]; reflexivity) ltac:(intros [[? ?] ?] [[? ?] ?]; reflexivity) vs gather_start) as (_ & _ & Z1 & Z2 & Z3).
  fold g in X1, X2, X3, Y1, Y2, Y3, Z1, Z2, Z3. cbn [gather_start bbox_min bbox_max fst snd] in *.
  destruct X as (XL & XH & XB), Y as (YL & YH & YB), Z as (ZL & ZH & ZB).
  destruct (span_one vs fx _ _ _ _ N X1 X2 X3 XL XH XB) as (A1 & A2 & A3). destruct (span_one vs fy _ _ _ _ N Y1 Y2 Y3 YL YH YB) as (B1 & B2 & B3). destruct (span_one vs fz _ _ _ _ N Z1 Z2 Z3 ZL ZH ZB) as (C1 & C2 & C3).
  assert (XO : fst (fst l) <= fst (fst h)) by (destruct XL as (p & I & E); pose proof (XB p I); lra).
  assert (YO : snd (fst l) <= snd (fst h)) by (destruct YL as (p & I & E); pose proof (YB p I); lra).
  assert (ZO : snd l <= snd h) by (destruct ZL as (p & I & E); pose proof (ZB p I); lra).
  destruct (bbox_max g) as [[mx my] mz], (bbox_min g) as [[nx ny] nz], l as [[lx ly] lz], h as [[hx hy] hz]. cbn [fst snd] in *. unfold distance2, minus, scalar. split.
  - assert (SQ : forall a b c d, a <= c -> c <= d -> d <= b -> (c - d) * (c - d) <= (b - a) * (b - a)) by (intros; nra). pose proof (SQ nx mx lx hx A1 XO A2). pose proof (SQ ny my ly hy B1 YO B2). pose proof (SQ nz mz lz hz C1 ZO C2). lra.
  - intros M. destruct (A3 (fun p I => proj1 (M p I))) as [-> ->]. destruct (B3 (fun p I => proj1 (proj2 (M p I)))) as [-> ->]. destruct (C3 (fun p I => proj2 (proj2 (M p I)))) as [-> ->]. ring.
Qed.

(** The triangle. *)
Lemma triangle_form vs n0 o e : vs <> [] -> n0 <> (0, 0, 0) -> (forall s, 0 < s -> n0 <> (- s, 0, 0) /\ n0 <> (0, - s, 0)) ->
  exists n U V l D, 0 < l /\ n0 = ml n l /\ frame n U V /\ (exists k, 0 < k /\ U = ml (cr n (other_vector n)) k /\ V = cr n U) /\ 0 <= D /\
    (forall a b, box_of vs a b -> 4 * distance2 a b <= D * D /\ (moderate vs -> D * D = 4 * distance2 a b)) /\
    triangle id_ id_ vs n0 o e = Some (ad (foot n0 (mean vs)) (ml (ml (ad U V) (/ sqrt 2)) D), ad (foot n0 (mean vs)) (ml (ml (sb U V) (/ sqrt 2)) D), sb (foot n0 (mean vs)) (ml U D)).
Proof.
  intros NE N0 NB. pose proof (normalize_some n0 N0) as EN. set (n := ml n0 (/ sqrt (scalar n0 n0))) in *. destruct (normalize_unit _ _ EN) as (N1 & l & L & E0 & E1).
  assert (B : ~ bad n). { intros [B | B]; rewrite B in E0; cbn in E0; unfold id_ in E0; [apply (proj1 (NB l L))|apply (proj2 (NB l L))]; rewrite E0; veq; ring. }
  pose proof (other_good n N1 B) as U0. set (u := cr n (other_vector n)) in *.
  destruct (directions n u N1 (cross_l n _) U0) as (U & V & F & FK & D1 & D2 & D3).
  set (g := fold_left (gather id_ n) vs gather_start). exists n, U, V, l, (length id_ (sb (bbox_max g) (bbox_min g)) * 2).
  assert (LG : length id_ (sb (bbox_max g) (bbox_min g)) = sqrt (distance2 (bbox_max g) (bbox_min g))) by (unfold length; rewrite dot_scalar; reflexivity).
  split; [exact L|]. split; [exact E0|]. split; [exact F|]. split; [exact FK|]. split; [|split].
  - rewrite LG. pose proof (sqrt_pos (distance2 (bbox_max g) (bbox_min g))). lra.
  - intros a b BX. destruct (diag_box n vs a b NE BX) as [G1' G2']. fold g in G1', G2'. rewrite LG. pose proof (sqrt_sqrt (distance2 (bbox_max g) (bbox_min g)) (scalar_pos _)). split; [lra|]. intros M. rewrite <- (G2' M). lra.
  - unfold triangle. rewrite EN. fold g. rewrite (mean_eq n vs NE : div id_ (total g) _ = _). cbn zeta. fold u. rewrite D1, D2, D3. f_equal.
    assert (FT : sb (mean vs) (ml n (dot id_ (mean vs) n)) = foot n0 (mean vs)).
    { rewrite dot_scalar. generalize (mean vs). intros m. rewrite E0. unfold foot. rewrite (scalar_sym (ml n l) m), scalar_mul, scalar_mul, (scalar_sym (ml n l) n), scalar_mul, N1. destruct n as [[a b] c], m as [[x y] z]. cbn [mul sub]. unfold id_. veq; field; lra. }
    rewrite FT. unfold narrow_vec. destruct (foot n0 (mean vs)) as [[a b] c], U as [[x y] z], V as [[x' y'] z']. reflexivity.
Qed.
