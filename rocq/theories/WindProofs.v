(** The winding number of a closed surface is its crossing number. *)
From Coq Require Import List ZArith Reals Lra Lia Psatz Bool Permutation.
From Verif Require Import Vec VecLemmas GeoModel InputSpec HmeshModel HmeshSpec WindModel WindAngle WindCocycle WindSpec WindRay.
Import ListNotations.
Open Scope R_scope.

(** ** Solid angles *)
Lemma numerator_det a b c : dot_product a (cross_product (vsub b a) (vsub c a)) = det3 a b c.
Proof. destruct a as [[a1 a2] a3], b as [[b1 b2] b3], c as [[c1 c2] c3]. unfold det3, dot_product, cross_product, vsub. ring. Qed.
Lemma guarded_arg a b c z : clear a b c -> z = zre a b c -> (if eqb (det3 a b c) 0 then 0 else atan2 (det3 a b c) z) = arg a b c.
Proof.
  intros C ->. destruct (eqb_spec (det3 a b c) 0) as [E|N]; [|reflexivity].
  destruct (arg_sign a b c C) as [[S _] | [[_ S] | [S _]]]; [lra|symmetry; exact S|lra].
Qed.
Lemma vlen_off q v : v <> q -> eqb (vlen (vsub v q)) 0 = false.
Proof.
  intros N. destruct (eqb_spec (vlen (vsub v q)) 0) as [E|E]; [exfalso|reflexivity].
  assert (M : vsub v q <> zero3).
  { intros X. apply N. destruct v as [[x y] z], q as [[q1 q2] q3]. unfold vsub, zero3 in X. apply vec_inv in X. apply vec_eq; lra. }
  pose proof (vlen_pos _ M). lra.
Qed.

Definition angle (q : vec3) (T : triangle) : R := let '(a, b, c) := T in arg (dir q a) (dir q b) (dir q c).

Lemma solid3 a b c q : ~ in_triangle q (a, b, c) -> solid_angle3 a b c q = angle q (a, b, c) / (2 * PI).
Proof.
  intros Off. destruct (corner_off q a b c Off) as (Na & Nb & Nc). pose proof (triangle_clear q a b c Off) as C.
  unfold solid_angle3. rewrite !vlen_off by assumption. cbn [orb]. fold (dir q a). fold (dir q b). fold (dir q c).
  rewrite numerator_det. unfold angle. rewrite <- (guarded_arg _ _ _ (1 + dot_product (dir q a) (dir q b) + dot_product (dir q a) (dir q c) + dot_product (dir q b) (dir q c)) C).
  - destruct (eqb _ 0); [field; apply PI_neq0|reflexivity].
  - unfold zre. rewrite (dot_comm (dir q c)). ring.
Qed.

Lemma bary_dets a b c d :
  dot_product d (cross_product (vsub d c) (vsub d b)) = - det3 b c d /\
  - dot_product c (cross_product (vsub d c) (vsub c a)) = det3 a c d /\
  - dot_product b (cross_product (vsub b a) (vsub d b)) = - det3 a b d /\
  dot_product a (cross_product (vsub b a) (vsub c a)) = det3 a b c.
Proof.
  destruct a as [[a1 a2] a3], b as [[b1 b2] b3], c as [[c1 c2] c3], d as [[d1 d2] d3]. unfold det3, dot_product, cross_product, vsub. repeat split; ring.
Qed.

Lemma solid4 a b c d q : ~ in_triangle q (a, b, c) -> ~ in_triangle q (a, c, d) -> ~ in_triangle q (a, b, d) -> ~ in_triangle q (b, c, d) ->
  solid_angle4 a b c d q = (angle q (a, b, c) + angle q (a, c, d)) / (2 * PI) \/
  solid_angle4 a b c d q = (angle q (a, b, d) + angle q (b, c, d)) / (2 * PI).
Proof.
  intros O1 O2 O3 O4. destruct (corner_off q a b c O1) as (Na & Nb & Nc). destruct (corner_off q a c d O2) as (_ & _ & Nd).
  pose proof (triangle_clear _ _ _ _ O1) as C1. pose proof (triangle_clear _ _ _ _ O2) as C2. pose proof (triangle_clear _ _ _ _ O3) as C3. pose proof (triangle_clear _ _ _ _ O4) as C4.
  unfold solid_angle4. rewrite !vlen_off by assumption. cbn [orb]. fold (dir q a). fold (dir q b). fold (dir q c). fold (dir q d).
  destruct (bary_dets (dir q a) (dir q b) (dir q c) (dir q d)) as (E0 & E1 & E2 & E3). rewrite E0, E1, E2, E3. rewrite !Ropp_involutive.
  destruct (ltb _ _); [left|right]; f_equal; f_equal; unfold angle; apply guarded_arg; try assumption; unfold zre.
  - rewrite (dot_comm (dir q c) (dir q a)). ring.
  - rewrite (dot_comm (dir q d) (dir q a)). ring.
  - rewrite (dot_comm (dir q d) (dir q a)). ring.
  - rewrite (dot_comm (dir q d) (dir q b)). ring.
Qed.

(** ** Faces *)
Definition rsum {A} (f : A -> R) (l : list A) : R := fold_right (fun x s => f x + s) 0 l.
Lemma rsum_app {A} (f : A -> R) l r : rsum f (l ++ r) = rsum f l + rsum f r.
Proof. induction l as [|x l IH]; [change (rsum f r = 0 + rsum f r); ring|]. change (f x + rsum f (l ++ r) = f x + rsum f l + rsum f r). rewrite IH. ring. Qed.
Lemma rsum_perm {A} (f : A -> R) l r : Permutation l r -> rsum f l = rsum f r.
Proof. unfold rsum. induction 1; cbn [fold_right]; [reflexivity|rewrite IHPermutation; reflexivity|ring|congruence]. Qed.
Lemma rsum_concat {A} (f : A -> R) ll : rsum f (concat ll) = rsum (rsum f) ll.
Proof. induction ll as [|l ll IH]; [reflexivity|]. cbn [concat]. rewrite rsum_app, IH. reflexivity. Qed.
Lemma rsum_map {A B} (g : A -> B) (f : B -> R) l : rsum f (map g l) = rsum (fun x => f (g x)) l.
Proof. unfold rsum. induction l as [|x l IH]; cbn [fold_right map]; [reflexivity|rewrite IH; reflexivity]. Qed.
Lemma rsum_ext {A} (f g : A -> R) l : (forall x, In x l -> f x = g x) -> rsum f l = rsum g l.
Proof. induction l as [|x l IH]; intros H; [reflexivity|]. unfold rsum in *. cbn [fold_right]. rewrite (H x (or_introl eq_refl)), IH; [reflexivity|]. intros; apply H; right; assumption. Qed.
Lemma rsum_scale {A} (f : A -> R) k l : rsum (fun x => k * f x) l = k * rsum f l.
Proof. unfold rsum. induction l as [|x l IH]; cbn [fold_right]; [ring|rewrite IH; ring]. Qed.
Lemma rsum_plus {A} (f g : A -> R) l : rsum (fun x => f x + g x) l = rsum f l + rsum g l.
Proof. unfold rsum. induction l as [|x l IH]; cbn [fold_right]; [ring|rewrite IH; ring]. Qed.

Definition turns_of (coords : list vec3) (q : vec3) (T : itri) : R := angle q (place coords T).

Lemma position_Some coords i : (0 <= i < zlen coords)%Z -> vget coords i = Some (position coords i).
Proof. intros H. unfold position. destruct (vget_range_Some coords i H) as (p & ->). reflexivity. Qed.

Lemma to_global_spec vs local gl : Forall2 (fun i v => vget vs i = Some v) local gl -> to_global vs local = Some gl.
Proof. induction 1 as [|i v l g E _ IH]; [reflexivity|]. cbn. rewrite E. cbn. rewrite IH. reflexivity. Qed.

Lemma wn_triangles_spec coords q Ts wn :
  (forall T i, In T Ts -> In i (corners T) -> (0 <= i < zlen coords)%Z) -> (forall T, In T Ts -> ~ in_triangle q (place coords T)) ->
  wn_triangles coords q (concat (map corners Ts)) wn = Some (wn + rsum (turns_of coords q) Ts / (2 * PI)).
Proof.
  revert wn. induction Ts as [|T Ts IH]; intros wn Rg Off.
  - cbn. f_equal. field. apply PI_neq0.
  - destruct T as [[i j] k]. cbn [map concat corners app wn_triangles].
    rewrite !position_Some by (apply (Rg (i, j, k)); [left; reflexivity|cbn; auto]). cbn [obind].
    rewrite solid3 by (apply (Off (i, j, k)); left; reflexivity). rewrite IH.
    + f_equal. cbn [rsum fold_right]. unfold turns_of at 2. cbn [place]. unfold rsum. field. apply PI_neq0.
    + intros T x H. apply Rg. right. exact H.
    + intros T H. apply Off. right. exact H.
Qed.

Lemma face_spec cdt coords q vs : (3 <= length vs)%nat -> (forall v, In v vs -> (0 <= v < zlen coords)%Z) ->
  ((4 < length vs)%nat -> exists Ts, divides cdt vs Ts /\ same_border vs Ts) ->
  (forall Ts T, divides cdt vs Ts -> In T Ts -> ~ in_triangle q (place coords T)) ->
  exists Ts, divides cdt vs Ts /\ same_border vs Ts /\ face_winding cdt coords q vs = Some (rsum (turns_of coords q) Ts / (2 * PI)).
Proof.
  intros L3 Rg Cdt Off. unfold face_winding.
  destruct (Z.ltb_spec 4 (zlen vs)) as [L|L].
  - unfold zlen in L. destruct Cdt as (Ts & Dv & Sb); [lia|]. exists Ts. split; [exact Dv|]. split; [exact Sb|].
    inversion Dv as [| | |vs' Ts' Len F2]; subst; cbn [length] in L; try lia.
    rewrite (to_global_spec _ _ _ F2). cbn [obind]. rewrite wn_triangles_spec; [f_equal; ring| |].
    + intros T i HT Hi. assert (K : In i (concat (map corners Ts))) by (apply in_concat; exists (corners T); split; [apply in_map; exact HT|exact Hi]).
      apply Rg. clear - F2 K. induction F2 as [|x v l g E _ IH]; [destruct K|]. destruct K as [-> | K]; [eapply vget_In; exact E|auto].
    + intros T HT. apply (Off Ts T Dv HT).
  - destruct (Z.eqb_spec (zlen vs) 4) as [E4|N4].
    + destruct vs as [|i [|j [|k [|l [|? ?]]]]]; try (cbn in E4; discriminate E4); [|exfalso; unfold zlen in E4; cbn [length] in E4; lia].
      change (vget [i; j; k; l] 0) with (Some i). change (vget [i; j; k; l] 1) with (Some j). change (vget [i; j; k; l] 2) with (Some k). change (vget [i; j; k; l] 3) with (Some l). cbn [obind].
      rewrite !position_Some by (apply Rg; cbn; auto). cbn [obind].
      destruct (solid4 (position coords i) (position coords j) (position coords k) (position coords l) q) as [S|S].
      1-2: apply (Off _ (i, j, k) (div4_02 cdt i j k l)) || apply (Off _ (i, k, l) (div4_02 cdt i j k l)); cbn; auto.
      1-2: apply (Off _ (i, j, l) (div4_13 cdt i j k l)) || apply (Off _ (j, k, l) (div4_13 cdt i j k l)); cbn; auto.
      * exists [(i, j, k); (i, k, l)]. split; [constructor|]. split.
        -- exists [(k, i)]. cbn. unfold flip. cbn [fst snd]. change [(i, j); (j, k); (k, i); (i, k); (k, l); (l, i)] with ([(i, j); (j, k)] ++ [(k, i); (i, k)] ++ [(k, l); (l, i)]).
           change [(i, j); (j, k); (k, l); (l, i); (k, i); (i, k)] with ([(i, j); (j, k)] ++ [(k, l); (l, i)] ++ [(k, i); (i, k)]). apply Permutation_app_head, Permutation_app_comm.
        -- rewrite S. f_equal. cbn [rsum fold_right turns_of place]. unfold turns_of, place. field. apply PI_neq0.
      * exists [(i, j, l); (j, k, l)]. split; [constructor|]. split.
        -- exists [(j, l)]. cbn. unfold flip. cbn [fst snd]. apply (Permutation_trans (l' := [(i, j); (l, i); (j, l); (j, k); (k, l); (l, j)])); [constructor; constructor|]. constructor.
           apply (Permutation_trans (l' := [(j, l); (j, k); (k, l); (l, i); (l, j)])).
           ++ change ([(l, i)] ++ [(j, l); (j, k); (k, l)] ++ [(l, j)]) with ([(l, i)] ++ [(j, l); (j, k); (k, l)] ++ [(l, j)]).
              apply (Permutation_app_tail [(l, j)] (l := [(l, i); (j, l); (j, k); (k, l)]) (l' := [(j, l); (j, k); (k, l); (l, i)])). apply (Permutation_cons_append [(j, l); (j, k); (k, l)] (l, i)).
           ++ apply (Permutation_app_tail [(l, j)] (l := [(j, l); (j, k); (k, l); (l, i)]) (l' := [(j, k); (k, l); (l, i); (j, l)])). apply (Permutation_cons_append [(j, k); (k, l); (l, i)] (j, l)).
        -- rewrite S. f_equal. cbn [rsum fold_right turns_of place]. unfold turns_of, place. field. apply PI_neq0.
    + destruct vs as [|i [|j [|k [|? ?]]]]; cbn [length] in L3; try lia; [|exfalso; unfold zlen in L, N4; cbn [length] in L, N4; lia].
      change (vget [i; j; k] 0) with (Some i). change (vget [i; j; k] 1) with (Some j). change (vget [i; j; k] 2) with (Some k). cbn [obind].
      rewrite !position_Some by (apply Rg; cbn; auto). cbn [obind].
      exists [(i, j, k)]. split; [constructor|]. split; [exists []; cbn; apply Permutation_refl|].
      rewrite solid3 by (apply (Off _ (i, j, k) (div3 cdt i j k)); cbn; auto). f_equal. cbn [rsum fold_right turns_of place]. unfold turns_of, place. field. apply PI_neq0.
Qed.

(** ** Surfaces *)
(** the loop over the faces, given their vertices *)
Fixpoint rows_winding (cdt : list Z -> list Z) (coords : list vec3) (q : vec3) (fs : list (list Z)) (wn : R) : option R :=
  match fs with
  | [] => Some wn
  | vs :: r => do w <- face_winding cdt coords q vs; rows_winding cdt coords q r (wn + w)
  end.

Lemma rows_spec cdt coords q fs wn : faces_ok coords fs -> proper_cdt cdt fs -> off_surface cdt coords fs q ->
  exists Tss, Forall2 (fun vs Ts => divides cdt vs Ts /\ same_border vs Ts) fs Tss /\
    rows_winding cdt coords q fs wn = Some (wn + rsum (turns_of coords q) (concat Tss) / (2 * PI)).
Proof.
  revert wn. induction fs as [|vs fs IH]; intros wn Ok Cdt Off.
  - exists []. split; [constructor|]. cbn. f_equal. field. apply PI_neq0.
  - destruct (Ok vs (or_introl eq_refl)) as [L3 Rg].
    destruct (face_spec cdt coords q vs L3 Rg) as (Ts & Dv & Sb & Ef).
    + intros L. apply Cdt; [left; reflexivity|exact L].
    + intros Ts T Dv HT. apply (Off vs Ts T (or_introl eq_refl) Dv HT).
    + destruct (IH (wn + rsum (turns_of coords q) Ts / (2 * PI))) as (Tss & F & E).
      * intros v H. apply Ok. right. exact H.
      * intros v H. apply Cdt. right. exact H.
      * intros v Ts' T H. apply Off. right. exact H.
      * exists (Ts :: Tss). split; [constructor; auto|]. cbn [rows_winding]. rewrite Ef. cbn [obind]. rewrite E. f_equal. cbn [concat]. rewrite rsum_app. field. apply PI_neq0.
Qed.

Definition edge_turn (coords : list vec3) (q d : vec3) (e : Z * Z) : R :=
  arg (back d) (dir q (position coords (fst e))) (dir q (position coords (snd e))).

Lemma edge_turn_flip coords q d e : clear (back d) (dir q (position coords (fst e))) (dir q (position coords (snd e))) ->
  edge_turn coords q d (flip e) = - edge_turn coords q d e.
Proof. intros C. unfold edge_turn, flip. cbn [fst snd]. apply arg_swap. exact C. Qed.

(** a permutation of a set of edges with its reverse adds up to nothing *)
Lemma flips_cancel (f : Z * Z -> R) E : (forall e, In e E -> f (flip e) = - f e) -> Permutation E (map flip E) -> rsum f E = 0.
Proof.
  intros H P. assert (X : rsum f E = - rsum f E); [|lra]. rewrite (rsum_perm f _ _ P) at 1. rewrite rsum_map.
  rewrite (rsum_ext (fun x => f (flip x)) (fun x => -1 * f x)) by (intros x Hx; rewrite H by exact Hx; ring). rewrite rsum_scale. ring.
Qed.

Lemma border_sum (f : Z * Z -> R) vs Ts : same_border vs Ts -> (forall e, In e (concat (map tri_edges Ts)) -> f (flip e) = - f e) ->
  rsum f (concat (map tri_edges Ts)) = rsum f (directed_edges vs) /\ forall e, In e (directed_edges vs) -> f (flip e) = - f e.
Proof.
  intros (inner & P) H. split.
  - rewrite (rsum_perm f _ _ P), !rsum_app, rsum_map.
    rewrite (rsum_ext (fun x => f (flip x)) (fun x => -1 * f x)).
    + rewrite rsum_scale. ring.
    + intros x Hx. rewrite H; [ring|]. apply (Permutation_in x (Permutation_sym P)). rewrite !in_app_iff. auto.
  - intros e He. apply H, (Permutation_in e (Permutation_sym P)). rewrite in_app_iff. auto.
Qed.

Lemma zsum_app l r : zsum (l ++ r) = (zsum l + zsum r)%Z.
Proof. induction l as [|x l IH]; [reflexivity|]. unfold zsum in *. cbn [app fold_right]. rewrite IH. ring. Qed.

Lemma triangles_sum cdt coords q d vs Ts fs : d <> zero3 -> In vs fs -> divides cdt vs Ts -> off_surface cdt coords fs q -> generic_ray cdt coords fs q d ->
  exists ks, Forall2 (crosses q d) (map (place coords) Ts) ks /\
    rsum (turns_of coords q) Ts = rsum (edge_turn coords q d) (concat (map tri_edges Ts)) + IZR (zsum ks) * (2 * PI) /\
    forall e, In e (concat (map tri_edges Ts)) -> edge_turn coords q d (flip e) = - edge_turn coords q d e.
Proof.
  intros D Hv Dv Off [_ Gen].
  assert (G : forall l, (forall T, In T l -> In T Ts) -> exists ks, Forall2 (crosses q d) (map (place coords) l) ks /\
    rsum (turns_of coords q) l = rsum (edge_turn coords q d) (concat (map tri_edges l)) + IZR (zsum ks) * (2 * PI) /\
    forall e, In e (concat (map tri_edges l)) -> edge_turn coords q d (flip e) = - edge_turn coords q d e).
  { induction l as [|T l IH]; intros Sub.
    - exists []. split; [constructor|]. split; [cbn; ring|]. intros e [].
    - destruct IH as (ks & F & E & Fl); [intros; apply Sub; right; assumption|].
      assert (HT : In T Ts) by (apply Sub; left; reflexivity).
      pose proof (Off vs Ts T Hv Dv HT) as O. destruct T as [[i j] k]. cbn [place] in O.
      assert (E1 : forall t, 0 <= t -> ~ on_edge (ray_at q d t) (position coords i) (position coords j)) by (intros t Ht; apply (Gen vs Ts (i, j, k) i j t); cbn; auto).
      assert (E2 : forall t, 0 <= t -> ~ on_edge (ray_at q d t) (position coords j) (position coords k)) by (intros t Ht; apply (Gen vs Ts (i, j, k) j k t); cbn; auto).
      assert (E3 : forall t, 0 <= t -> ~ on_edge (ray_at q d t) (position coords k) (position coords i)) by (intros t Ht; apply (Gen vs Ts (i, j, k) k i t); cbn; auto).
      destruct (triangle_ray q d _ _ _ O D E1 E2 E3) as (x & Cx & Ax). destruct (corner_off _ _ _ _ O) as (Ni & Nj & Nk).
      exists (x :: ks). split; [cbn [map place]; constructor; assumption|]. split.
      + change (rsum (turns_of coords q) ((i, j, k) :: l)) with (turns_of coords q (i, j, k) + rsum (turns_of coords q) l). rewrite E.
        change (concat (map tri_edges ((i, j, k) :: l))) with ([(i, j); (j, k); (k, i)] ++ concat (map tri_edges l)). rewrite rsum_app.
        change (zsum (x :: ks)) with (x + zsum ks)%Z. rewrite plus_IZR.
        unfold turns_of at 1. cbn [place angle]. rewrite Ax. cbn [rsum fold_right]. unfold edge_turn at 2 3 4. cbn [fst snd]. ring.
      + intros e He. change (concat (map tri_edges ((i, j, k) :: l))) with ([(i, j); (j, k); (k, i)] ++ concat (map tri_edges l)) in He.
        apply in_app_iff in He. destruct He as [He|He]; [|apply Fl; exact He]. apply edge_turn_flip.
        destruct He as [<- | [<- | [<- | []]]]; cbn [fst snd]; apply edge_clear; assumption. }
  apply G. auto.
Qed.

Lemma surface_sum cdt coords q d fs Tss all : d <> zero3 -> incl fs all -> off_surface cdt coords all q -> generic_ray cdt coords all q d ->
  Forall2 (fun vs Ts => divides cdt vs Ts /\ same_border vs Ts) fs Tss ->
  exists ks, Forall2 (crosses q d) (map (place coords) (concat Tss)) ks /\
    rsum (turns_of coords q) (concat Tss) = rsum (edge_turn coords q d) (concat (map directed_edges fs)) + IZR (zsum ks) * (2 * PI) /\
    forall e, In e (concat (map directed_edges fs)) -> edge_turn coords q d (flip e) = - edge_turn coords q d e.
Proof.
  intros D Sub Off Gen F. induction F as [|vs Ts fs Tss [Dv Sb] _ IH].
  - exists []. split; [constructor|]. split; [cbn; ring|]. intros e [].
  - destruct IH as (ks & F & E & Fl); [intros x Hx; apply Sub; right; exact Hx|].
    destruct (triangles_sum cdt coords q d vs Ts all D (Sub vs (or_introl eq_refl)) Dv Off Gen) as (ks' & F' & E' & Fl').
    destruct (border_sum _ _ _ Sb Fl') as [B1 B2].
    exists (ks' ++ ks). split; [cbn [concat]; rewrite map_app; apply Forall2_app; assumption|]. split.
    + cbn [concat map]. rewrite !rsum_app, E, E', B1, zsum_app, plus_IZR. ring.
    + intros e He. cbn [concat map] in He. apply in_app_iff in He. destruct He; auto.
Qed.

Theorem winding_is_crossing cdt coords q d fs : faces_ok coords fs -> closed_faces fs -> proper_cdt cdt fs ->
  off_surface cdt coords fs q -> generic_ray cdt coords fs q d ->
  exists n, crossing_number cdt coords fs q d n /\ rows_winding cdt coords q fs 0 = Some (IZR n).
Proof.
  intros Ok Cl Cdt Off Gen. destruct (rows_spec cdt coords q fs 0 Ok Cdt Off) as (Tss & F & E).
  destruct (surface_sum cdt coords q d fs Tss fs (proj1 Gen) (incl_refl fs) Off Gen F) as (ks & Fk & Ek & Fl).
  exists (zsum ks). split.
  - exists Tss, ks. split; [|auto]. clear - F. induction F as [|? ? ? ? [? ?] _ IH]; constructor; assumption.
  - rewrite E. f_equal. rewrite Ek, (flips_cancel _ _ Fl Cl). field. apply PI_neq0.
Qed.

(** ** Which crossing number *)
Lemma crosses_unique q d T k k' : crosses q d T k -> crosses q d T k' -> k = k'.
Proof.
  assert (I : forall p S, inside_triangle p S -> in_triangle p S).
  { intros p [[a b] c] (u & v & w & U & V & W & H). exists u, v, w. intuition lra. }
  intros H H'. inversion H as [t T0 In0 N0|t T0 In0 N0|M0]; inversion H' as [t' T1 In1 N1|t' T1 In1 N1|M1]; try reflexivity; try lra;
    exfalso; first [apply (M1 t); [lra|apply I; exact In0]|apply (M0 t'); [lra|apply I; exact In1]].
Qed.
Lemma corners_inj Ts Ts' : concat (map corners Ts) = concat (map corners Ts') -> Ts = Ts'.
Proof.
  revert Ts'. induction Ts as [|[[i j] k] Ts IH]; intros [|[[i' j'] k'] Ts'] E; try discriminate E; [reflexivity|].
  cbn in E. injection E as -> -> -> E. rewrite (IH Ts' E). reflexivity.
Qed.
Lemma divides_unique cdt vs Ts Ts' : length vs <> 4%nat -> divides cdt vs Ts -> divides cdt vs Ts' -> Ts = Ts'.
Proof.
  intros N H H'. inversion H as [i j k|? ? ? ?|? ? ? ?|? ? L F]; subst; cbn [length] in N; try congruence.
  - inversion H' as [| | |? ? L' F']; subst; [reflexivity|cbn [length] in L'; lia].
  - inversion H' as [| | |? ? L' F']; subst; cbn [length] in *; try lia.
    apply corners_inj. clear - F F'. revert F'. generalize (concat (map corners Ts')). induction F as [|i v l g E _ IH]; intros g' F'; inversion F' as [|? v' ? ? E' Q]; subst; [reflexivity|].
    f_equal; [congruence|]. apply IH. assumption.
Qed.
Lemma crossing_unique cdt coords fs q d n n' : (forall vs, In vs fs -> length vs <> 4%nat) ->
  crossing_number cdt coords fs q d n -> crossing_number cdt coords fs q d n' -> n = n'.
Proof.
  intros N (Tss & ks & F & C & <-) (Tss' & ks' & F' & C' & <-).
  assert (E : Tss = Tss').
  { clear C C'. revert Tss' F' N. induction F as [|vs Ts fs Tss D _ IH]; intros Tss' F' N; inversion F' as [|? Ts' ? ? D' Q]; subst; [reflexivity|].
    f_equal; [apply (divides_unique cdt vs); auto; apply N; left; reflexivity|]. apply IH; [assumption|]. intros; apply N; right; assumption. }
  subst Tss'. f_equal. clear - C C'. revert ks' C'. induction C as [|T k l ks H _ IH]; intros ks' C'; inversion C' as [|? k' ? ? H' Q]; subst; [reflexivity|].
  f_equal; [eapply crosses_unique; eassumption|apply IH; assumption].
Qed.
