(** The intersection type with the winding numbers of the code (C81): where it is right, and a pair of
    closed meshes that are far from each other of which one is reported to be inside the other. *)
From Coq Require Import List ZArith Reals Lra Lia Psatz Bool Permutation.
From Verif Require Import Vec VecLemmas HmeshModel HmeshSpec HmeshProps InputModel InputSpec
  DispatchModel ITypeModel GeoModel WindModel WindAngle WindCocycle WindSpec WindRay WindProofs WindGeneric WindProps.
Import ListNotations.
Open Scope R_scope.
Ltac Zify.zify_post_hook ::= idtac.

(** [inside a b] as the code finds it out: the winding number of the first vertex of [a] about [b] *)
Definition asks (cdt : list Z -> list Z) (mesh : which -> hmesh) (coords : which -> list vec3) (inside : which -> which -> bool) : Prop :=
  forall a b p w, vget (coords a) 0 = Some p -> winding_number cdt (mesh b) (coords b) p = Some w -> inside a b = tells_inside w.

(** a closed mesh, and a point that is not on it *)
Definition closed_about (cdt : list Z -> list Z) (m : hmesh) (coords : list vec3) (rows : list (list Z)) (q : vec3) : Prop :=
  lists m rows /\ faces_ok coords rows /\ closed_faces rows /\ proper_cdt cdt rows /\ off_surface cdt coords rows q.

(** Unless both meshes are closed and the source mesh has the smaller box, the type is decided by the signed
    crossings of a ray from the first vertex of the one mesh with the other, closed, mesh. *)
Theorem C81_type_partial cdt mesh coords rows pS pC sm_closed cm_closed larger inside :
  vget (coords Src) 0 = Some pS -> vget (coords Cut) 0 = Some pC -> asks cdt mesh coords inside ->
  (sm_closed = true -> closed_about cdt (mesh Src) (coords Src) (rows Src) pC) ->
  (cm_closed = true -> closed_about cdt (mesh Cut) (coords Cut) (rows Cut) pS) ->
  (sm_closed = true -> cm_closed = true -> larger = true) ->
  exists nS nC,
    (sm_closed = true -> forall d, generic_ray cdt (coords Src) (rows Src) pC d -> crossing_number cdt (coords Src) (rows Src) pC d nS) /\
    (cm_closed = true -> forall d, generic_ray cdt (coords Cut) (rows Cut) pS d -> crossing_number cdt (coords Cut) (rows Cut) pS d nC) /\
    check_type sm_closed cm_closed true larger inside =
      (if sm_closed && (nS =? 1)%Z then InsideSourceMesh else if cm_closed && (nC =? 1)%Z then InsideCutMesh else NoneType).
Proof.
  intros ES EC A HS HC HL.
  assert (GS : exists nS, sm_closed = true -> inside Cut Src = (nS =? 1)%Z /\ forall d, generic_ray cdt (coords Src) (rows Src) pC d -> crossing_number cdt (coords Src) (rows Src) pC d nS).
  { destruct sm_closed; [|exists 0%Z; discriminate]. destruct (HS eq_refl) as (L & Ok & Cl & Cd & Off).
    destruct (C81_whole_number cdt _ _ _ _ L Ok Cl Cd Off) as (n & E & T & _ & X). exists n. intros _. split; [|exact X].
    rewrite (A Cut Src _ _ EC E). destruct (Z.eqb_spec n 1) as [Q|Q]; [apply T, Q|]. destruct (tells_inside (IZR n)); [|reflexivity]. destruct (Q (proj1 T eq_refl)). }
  assert (GC : exists nC, cm_closed = true -> inside Src Cut = (nC =? 1)%Z /\ forall d, generic_ray cdt (coords Cut) (rows Cut) pS d -> crossing_number cdt (coords Cut) (rows Cut) pS d nC).
  { destruct cm_closed; [|exists 0%Z; discriminate]. destruct (HC eq_refl) as (L & Ok & Cl & Cd & Off).
    destruct (C81_whole_number cdt _ _ _ _ L Ok Cl Cd Off) as (n & E & T & _ & X). exists n. intros _. split; [|exact X].
    rewrite (A Src Cut _ _ ES E). destruct (Z.eqb_spec n 1) as [Q|Q]; [apply T, Q|]. destruct (tells_inside (IZR n)); [|reflexivity]. destruct (Q (proj1 T eq_refl)). }
  destruct GS as (nS & GS), GC as (nC & GC). exists nS, nC. split; [intros K; apply GS, K|]. split; [intros K; apply GC, K|].
  unfold check_type. destruct sm_closed, cm_closed; cbn [negb andb orb].
  - rewrite (HL eq_refl eq_refl). destruct (GS eq_refl) as [-> _], (GC eq_refl) as [-> _]. reflexivity.
  - destruct (GS eq_refl) as [-> _]. reflexivity.
  - destruct (GC eq_refl) as [-> _]. reflexivity.
  - reflexivity.
Qed.
Print Assumptions C81_type_partial.

(** ** A mesh that is said to contain another one *)
Definition real_point (p : point) : vec3 := let '(x, y, z) := p in (IZR x, IZR y, IZR z).
(** A tetrahedron with a thin dent: vertex 0 is the tip of the dent, 5, 6, 7 its rim in the bottom. *)
Definition dent_points : list point :=
  [(4000, 4000, 2000); (0, 0, 0); (16000, 0, 0); (0, 16000, 0); (0, 0, 16000); (4000, 4000, 0); (4000, 4001, 0); (4001, 4000, 0)]%Z.
Definition walls : list (list Z) :=
  [[1; 2; 4]; [1; 4; 3]; [2; 3; 4]; [1; 3; 5]; [3; 6; 5]; [3; 2; 6]; [2; 7; 6]; [2; 1; 7]; [1; 5; 7]]%Z.
Definition dent : list (list Z) := [[5; 6; 0]; [6; 7; 0]; [7; 5; 0]]%Z.
Definition lid : list (list Z) := [[5; 6; 7]]%Z.
(** another tetrahedron, far away *)
Definition far_points : list point := [(14000, 14000, 14000); (214000, 14000, 14000); (14000, 214000, 14000); (14000, 14000, 214000)]%Z.
Definition far_faces : list (list Z) := [[0; 2; 1]; [0; 1; 3]; [1; 2; 3]; [2; 0; 3]]%Z.

Definition mesh_of (pts : list point) (fs : list (list Z)) : option hmesh :=
  match seq_convert pts None (concat fs) (zlen fs) with CAccept m => Some m | _ => None end.
Lemma mesh_of_accepts pts fs m : mesh_of pts fs = Some m -> seq_convert pts None (concat fs) (zlen fs) = CAccept m.
Proof. unfold mesh_of. destruct (seq_convert _ _ _ _); congruence. Qed.

Lemma of_triangles cdt pts fs m : (forall f, In f fs -> length f = 3%nat) -> (forall x, In x (concat fs) -> (0 <= x)%Z) -> (zlen (concat fs) < 2 ^ 31)%Z ->
  mesh_of pts fs = Some m -> mesh_is_closed m = Some true ->
  lists m (map rotate1 fs) /\ faces_ok (map real_point pts) (map rotate1 fs) /\ closed_faces (map rotate1 fs) /\ proper_cdt cdt (map rotate1 fs).
Proof.
  intros N3 Nn Ll E C. apply mesh_of_accepts in E.
  destruct (C81_accepted pts None (concat fs) fs m (map real_point pts)) as (A & B & D); try assumption.
  - split; [exists []; symmetry; apply app_nil_r|exact N3].
  - unfold zlen. rewrite map_length. reflexivity.
  - split; [exact A|]. split; [exact B|]. split; [exact (D C)|]. intros vs Hv L4. apply in_map_iff in Hv. destruct Hv as (f & <- & Hf). specialize (N3 f Hf).
    destruct f as [|a [|b [|c [|? ?]]]]; try discriminate N3. cbn in L4. lia.
Qed.

Ltac three_corners := repeat (match goal with H : In _ _ |- _ => destruct H as [<-|H]; [reflexivity|] end); match goal with H : In _ _ |- _ => destruct H end.
Ltac small := repeat (match goal with H : In _ _ |- _ => destruct H as [<-|H]; [lia|] end); match goal with H : In _ _ |- _ => destruct H end.

Definition dent_coords : list vec3 := map real_point dent_points.
Lemma at0 : position dent_coords 0 = (4000, 4000, 2000). Proof. reflexivity. Qed.
Lemma at1 : position dent_coords 1 = (0, 0, 0). Proof. reflexivity. Qed.
Lemma at2 : position dent_coords 2 = (16000, 0, 0). Proof. reflexivity. Qed.
Lemma at3 : position dent_coords 3 = (0, 16000, 0). Proof. reflexivity. Qed.
Lemma at4 : position dent_coords 4 = (0, 0, 16000). Proof. reflexivity. Qed.
Lemma at5 : position dent_coords 5 = (4000, 4000, 0). Proof. reflexivity. Qed.
Lemma at6 : position dent_coords 6 = (4000, 4001, 0). Proof. reflexivity. Qed.
Lemma at7 : position dent_coords 7 = (4001, 4000, 0). Proof. reflexivity. Qed.

(** *** the winding number about the tip of the dent, with the lid closed *)
Definition tip : vec3 := (4000, 4000, 2000).
(** a triangle in one of the coordinate planes, or the slanted one *)
Definition flat (T : triangle) : Prop :=
  let '(a, b, c) := T in exists i, (i < 3)%nat /\ comp a i = 0 /\ comp b i = 0 /\ comp c i = 0.
Ltac places := unfold flat; cbn [place]; rewrite ?at1, ?at2, ?at3, ?at4, ?at5, ?at6, ?at7; cbn [comp].
Lemma flat_missed T t : flat T -> 0 <= t -> ~ in_triangle (ray_at tip (3, 2, 1) t) T.
Proof.
  destruct T as [[[[a1 a2] a3] [[b1 b2] b3]] [[c1 c2] c3]]. intros (i & Hi & A & B & C) Ht (u & v & w & _ & _ & _ & _ & E). unfold ray_at, tip, mix in E. apply vec_inv in E. destruct E as (E1 & E2 & E3).
  destruct i as [|[|[|i]]]; [| | |lia]; unfold comp in *; subst; lra.
Qed.

Definition lidded : list (list Z) := walls ++ lid.
Lemma lidded_divides cdt vs Ts T : In vs (map rotate1 lidded) -> divides cdt vs Ts -> In T Ts ->
  T = (3, 4, 2)%Z \/ flat (place dent_coords T).
Proof.
  intros Hv D HT. cbn [lidded walls lid map rotate1 app In] in Hv.
  repeat (destruct Hv as [<-|Hv]; [inversion D as [i j k| | |x y L4]; subst; [|cbn in L4; lia]; destruct HT as [<-|[]];
    first [left; reflexivity|right; places; exists 0%nat; cbn [comp]; split; [lia|repeat split; lra]|right; places; exists 1%nat; cbn [comp]; split; [lia|repeat split; lra]|right; places; exists 2%nat; cbn [comp]; split; [lia|repeat split; lra]]|]).
  destruct Hv.
Qed.
Lemma lidded_off cdt : off_surface cdt dent_coords (map rotate1 lidded) tip.
Proof.
  intros vs Ts T Hv D HT Q. destruct (lidded_divides cdt vs Ts T Hv D HT) as [->|F].
  - cbn [place] in Q. rewrite at3, at4, at2 in Q. destruct Q as (u & v & w & _ & _ & _ & S & E). unfold tip, mix in E. apply vec_inv in E. destruct E as (E1 & E2 & E3). lra.
  - apply (flat_missed _ 0 F ltac:(lra)). replace (ray_at tip (3, 2, 1) 0) with tip; [exact Q|]. unfold ray_at, tip. apply vec_eq; ring.
Qed.
Lemma lidded_generic cdt : generic_ray cdt dent_coords (map rotate1 lidded) tip (3, 2, 1).
Proof.
  split; [intros E; apply vec_inv in E; lra|]. intros vs Ts T i j t Hv D HT He Ht. unfold on_edge. apply flat_missed; [|exact Ht].
  destruct (lidded_divides cdt vs Ts T Hv D HT) as [->|F].
  - cbn in He. destruct He as [E|[E|[E|[]]]]; injection E as <- <-; places; [exists 0%nat|exists 1%nat|exists 2%nat]; cbn [comp]; (split; [lia|repeat split; lra]).
  - destruct T as [[x y] z]. destruct F as (k & Hk & A & B & C). exists k. split; [exact Hk|]. cbn in He.
    destruct He as [E|[E|[E|[]]]]; injection E as <- <-; auto.
Qed.
Lemma lidded_crossing cdt : crossing_number cdt dent_coords (map rotate1 lidded) tip (3, 2, 1) 1.
Proof.
  exists (map (fun f => match f with [a; b; c] => [(a, b, c)] | _ => [] end) (map rotate1 lidded)), [0; 0; 1; 0; 0; 0; 0; 0; 0; 0]%Z.
  split; [cbn; repeat constructor|]. split; [|reflexivity].
  assert (Z : forall T, flat T -> crosses tip (3, 2, 1) T 0) by (intros T F; apply cross_none; intros t Ht; apply flat_missed; assumption).
  cbn [lidded walls lid map rotate1 app concat].
  repeat (apply Forall2_cons; [try (apply Z; first [places; exists 0%nat; cbn [comp]; split; [lia|repeat split; lra]|places; exists 1%nat; cbn [comp]; split; [lia|repeat split; lra]|places; exists 2%nat; cbn [comp]; split; [lia|repeat split; lra]])|]); [|constructor].
  apply (cross_out _ _ _ 1000); [lra| |places; cbn; lra].
  places. cbn [inside_triangle]. exists (6/16), (3/16), (7/16). repeat split; try lra. unfold tip, ray_at, mix. apply vec_eq; lra.
Qed.

(** *** the lid is seen under a tiny angle *)
Lemma atan_le t : 0 < t -> atan t <= t.
Proof.
  intros T. destruct (MVT_cor2 atan (fun x => / (1 + x ^ 2)) 0 t T) as (c & E & Hc); [intros; apply derivable_pt_lim_atan|]. rewrite atan_0 in E.
  assert (/ (1 + c ^ 2) <= 1). { rewrite <- Rinv_1. apply Rinv_le_contravar; [lra|]. pose proof (pow2_ge_0 c). lra. }
  assert (/ (1 + c ^ 2) * t <= 1 * t) by (apply Rmult_le_compat_r; lra). lra.
Qed.
Lemma vlen_lower x y z k : 0 <= k -> k * k <= z * z -> k <= vlen (x, y, z).
Proof.
  intros K H. unfold vlen. rewrite <- (sqrt_square k K). apply sqrt_le_1_alt. unfold dot_product. pose proof (Rle_0_sqr x). pose proof (Rle_0_sqr y). unfold Rsqr in *. lra.
Qed.
Lemma dot_scale k l a b : dot_product (vscale k a) (vscale l b) = k * l * dot_product a b.
Proof. destruct a as [[? ?] ?], b as [[? ?] ?]. unfold vscale, dot_product. ring. Qed.

Lemma lid_angle : 0 <= solid_angle3 (position dent_coords 6) (position dent_coords 7) (position dent_coords 5) tip < / 10000000.
Proof.
  rewrite at5, at6, at7. unfold solid_angle3, tip, vsub.
  replace (4000 - 4000) with 0 by ring. replace (4001 - 4000) with 1 by ring. replace (0 - 2000) with (-2000) by ring.
  set (a := (0, 1, -2000) : vec3). set (b := (1, 0, -2000) : vec3). set (c := (0, 0, -2000) : vec3).
  assert (A : 2000 <= vlen a) by (apply vlen_lower; lra). assert (B : 2000 <= vlen b) by (apply vlen_lower; lra). assert (C : 2000 <= vlen c) by (apply vlen_lower; lra).
  destruct (eqb_spec (vlen a) 0); [lra|]. destruct (eqb_spec (vlen b) 0); [lra|]. destruct (eqb_spec (vlen c) 0); [lra|]. cbn [orb].
  rewrite !vdiv_scale by assumption. fold (vsub (vscale (/ vlen b) b) (vscale (/ vlen a) a)). fold (vsub (vscale (/ vlen c) c) (vscale (/ vlen a) a)).
  rewrite numerator_det, det3_scale, !dot_scale.
  replace (det3 a b c) with 2000 by (unfold det3, a, b, c, cross_product, dot_product; ring).
  replace (dot_product a b) with 4000000 by (unfold a, b, dot_product; ring).
  replace (dot_product a c) with 4000000 by (unfold a, c, dot_product; ring).
  replace (dot_product b c) with 4000000 by (unfold b, c, dot_product; ring).
  assert (I : forall x, 2000 <= x -> 0 < / x <= / 2000) by (intros x Hx; split; [apply Rinv_0_lt_compat; lra|apply Rinv_le_contravar; lra]).
  pose proof (I _ A) as IA. pose proof (I _ B) as IB. pose proof (I _ C) as IC. clear I.
  set (x := / vlen a) in *. set (y := / vlen b) in *. set (z := / vlen c) in *. clearbody x y z. clear a b c A B C n n0 n1.
  assert (XY : 0 < x * y <= / 4000000). { split; [apply Rmult_lt_0_compat; lra|]. replace (/ 4000000) with (/ 2000 * / 2000) by lra. apply Rmult_le_compat; lra. }
  assert (XZ : 0 < x * z) by (apply Rmult_lt_0_compat; lra). assert (YZ : 0 < y * z) by (apply Rmult_lt_0_compat; lra).
  assert (XYZ : 0 < x * y * z <= / 8000000000). { split; [apply Rmult_lt_0_compat; lra|]. replace (/ 8000000000) with (/ 4000000 * / 2000) by lra. apply Rmult_le_compat; lra. }
  destruct (eqb_spec (x * y * z * 2000) 0) as [E|E]; [lra|]. unfold atan2.
  match goal with |- context [ltb 0 ?d] => set (den := d); assert (D : 1 <= den) by (unfold den; lra); clearbody den end.
  destruct (ltb_spec 0 den) as [_|K]; [|lra].
  set (num := x * y * z * 2000) in *. assert (N : 0 < num <= / 4000000) by (unfold num; lra). clearbody num.
  assert (Q : 0 < num / den <= num). { unfold Rdiv. assert (0 < / den <= 1) by (split; [apply Rinv_0_lt_compat; lra|rewrite <- Rinv_1; apply Rinv_le_contravar; lra]). split; [apply Rmult_lt_0_compat; lra|]. rewrite <- (Rmult_1_r num) at 2. apply Rmult_le_compat_l; lra. }
  pose proof (atan_le _ (proj1 Q)) as At. pose proof (atan_pos _ (proj1 Q)) as Ap. pose proof PI2_3_2 as P3.
  assert (IP : 0 < / (2 * PI) <= / 6) by (split; [apply Rinv_0_lt_compat; lra|apply Rinv_le_contravar; lra]).
  unfold Rdiv at 1 3. split; [apply Rmult_le_pos; lra|]. apply Rle_lt_trans with (/ 4000000 * / 6); [apply Rmult_le_compat; lra|lra].
Qed.

(** *** the winding number of the dented mesh about its own first vertex *)
Lemma rows_app cdt coords q l r wn : rows_winding cdt coords q (l ++ r) wn = (do w <- rows_winding cdt coords q l wn; rows_winding cdt coords q r w).
Proof. revert wn. induction l as [|f l IH]; intros wn; [reflexivity|]. cbn [app rows_winding]. destruct (face_winding cdt coords q f); [|reflexivity]. cbn [obind]. apply IH. Qed.
Lemma face3 cdt coords q i j k : (forall v, In v [i; j; k] -> (0 <= v < zlen coords)%Z) ->
  face_winding cdt coords q [i; j; k] = Some (0 + solid_angle3 (position coords i) (position coords j) (position coords k) q).
Proof.
  intros Rg. unfold face_winding. change (4 <? zlen [i; j; k])%Z with false. change (zlen [i; j; k] =? 4)%Z with false. cbv iota.
  change (vget [i; j; k] 0) with (Some i). change (vget [i; j; k] 1) with (Some j). change (vget [i; j; k] 2) with (Some k). cbn [obind].
  rewrite !position_Some by (apply Rg; cbn; auto). reflexivity.
Qed.
Lemma own_face a c : solid_angle3 a tip c tip = 0.
Proof.
  unfold solid_angle3. replace (vsub tip tip) with zero3 by (unfold vsub, tip, zero3; apply vec_eq; ring). rewrite vlen_zero.
  destruct (eqb_spec 0 0) as [_|N]; [|destruct (N eq_refl)]. rewrite orb_true_r. reflexivity.
Qed.

Lemma own_winding cdt m : mesh_of dent_points (walls ++ dent) = Some m -> mesh_is_closed m = Some true ->
  exists w, winding_number cdt m dent_coords tip = Some w /\ tells_inside w = true.
Proof.
  intros E Cl. destruct (of_triangles cdt dent_points (walls ++ dent) m) as (L & Ok & _ & _); try assumption.
  { intros f Hf. cbn [walls dent app] in Hf. three_corners. } { intros x Hx. cbn [walls dent app concat] in Hx. small. } { reflexivity. }
  rewrite (winding_rows _ _ _ _ _ L). rewrite map_app, rows_app. clear L Ok E Cl m.
  destruct (mesh_of dent_points lidded) as [m|] eqn:E; [|vm_compute in E; discriminate E].
  assert (Cl : mesh_is_closed m = Some true) by (vm_compute in E; injection E as <-; vm_compute; reflexivity).
  destruct (of_triangles cdt dent_points lidded m) as (L & Ok & Cf & Cd); try assumption.
  { intros f Hf. cbn [lidded walls lid app] in Hf. three_corners. } { intros x Hx. cbn [lidded walls lid app concat] in Hx. small. } { reflexivity. }
  fold dent_coords in *.
  destruct (C81_crossings cdt m dent_coords _ tip (3, 2, 1) L Ok Cf Cd (lidded_off cdt) (lidded_generic cdt)) as (n & W & _ & U).
  assert (n = 1%Z).
  { symmetry. apply U; [|apply lidded_crossing]. intros vs Hv. apply in_map_iff in Hv. destruct Hv as (f & <- & Hf). cbn [lidded walls lid app] in Hf.
    repeat (destruct Hf as [<-|Hf]; [cbn; lia|]). destruct Hf. }
  subst n. rewrite (winding_rows _ _ _ _ _ L) in W. unfold lidded in W. rewrite map_app, rows_app in W.
  destruct (rows_winding cdt dent_coords tip (map rotate1 walls) 0) as [w0|]; [|discriminate W]. cbn [obind] in *.
  cbn [lid dent map rotate1 app rows_winding] in W |- *.
  rewrite (face3 cdt dent_coords tip 6 7 5) in W by (intros v Hv; cbn in Hv |- *; change (zlen dent_coords) with 8%Z; lia). cbn [obind] in W.
  rewrite (face3 cdt dent_coords tip 6 0 5) by (intros v Hv; cbn in Hv |- *; change (zlen dent_coords) with 8%Z; lia).
  rewrite (face3 cdt dent_coords tip 7 0 6) by (intros v Hv; cbn in Hv |- *; change (zlen dent_coords) with 8%Z; lia).
  rewrite (face3 cdt dent_coords tip 5 0 7) by (intros v Hv; cbn in Hv |- *; change (zlen dent_coords) with 8%Z; lia).
  cbn [obind]. rewrite at0. fold tip. rewrite !own_face. eexists. split; [reflexivity|]. injection W as W. pose proof lid_angle as A.
  unfold tells_inside, winding_eps. match goal with |- ltb ?x ?y = true => destruct (ltb_spec x y) as [K|K]; [reflexivity|] end. exfalso.
  apply K. apply Rabs_def1; lra.
Qed.

(** *** the reported type *)
Definition box_low (l : list point) : point := fold_right (fun '(x, y, z) '(a, b, c) => (Z.min x a, Z.min y b, Z.min z c)) (2 ^ 40, 2 ^ 40, 2 ^ 40)%Z l.
Definition box_high (l : list point) : point := fold_right (fun '(x, y, z) '(a, b, c) => (Z.max x a, Z.max y b, Z.max z c)) (- 2 ^ 40, - 2 ^ 40, - 2 ^ 40)%Z l.
Definition boxes_overlap (p q : list point) : Prop :=
  let '(a, b, c) := box_low p in let '(d, e, f) := box_high p in let '(a', b', c') := box_low q in let '(d', e', f') := box_high q in
  (a <= d' /\ a' <= d /\ b <= e' /\ b' <= e /\ c <= f' /\ c' <= f)%Z.
Definition diagonal (p : list point) : Z :=
  let '(a, b, c) := box_low p in let '(d, e, f) := box_high p in ((d - a) ^ 2 + (e - b) ^ 2 + (f - c) ^ 2)%Z.

(** The source mesh is on the one side of a plane and the cut mesh on the other one: the winding number of
    each vertex of each mesh about the other mesh is 0.  Still, since the second test asks for the winding
    number of the first vertex of the source mesh about the source mesh itself, the cut mesh is reported to
    be inside the source mesh. *)
Theorem C81_own_vertex_refuted : forall cdt, exists mS mC,
  mesh_of dent_points (walls ++ dent) = Some mS /\ mesh_of far_points far_faces = Some mC /\
  mesh_is_closed mS = Some true /\ mesh_is_closed mC = Some true /\
  boxes_overlap dent_points far_points /\ (diagonal dent_points < diagonal far_points)%Z /\
  (forall x y z, In (x, y, z) dent_coords -> x + y + z <= 16000) /\
  (forall x y z, In (x, y, z) (map real_point far_points) -> 42000 <= x + y + z) /\
  (forall p, In p (map real_point far_points) -> winding_number cdt mS dent_coords p = Some 0) /\
  (forall p, In p dent_coords -> winding_number cdt mC (map real_point far_points) p = Some 0) /\
  forall inside,
    asks cdt (fun x => match x with Src => mS | Cut => mC end) (fun x => match x with Src => dent_coords | Cut => map real_point far_points end) inside ->
    check_type true true true false inside = InsideSourceMesh.
Proof.
  intros cdt.
  destruct (mesh_of dent_points (walls ++ dent)) as [mS|] eqn:ES; [|vm_compute in ES; discriminate ES].
  assert (CS : mesh_is_closed mS = Some true) by (vm_compute in ES; injection ES as <-; vm_compute; reflexivity).
  destruct (mesh_of far_points far_faces) as [mC|] eqn:EC; [|vm_compute in EC; discriminate EC].
  assert (CC : mesh_is_closed mC = Some true) by (vm_compute in EC; injection EC as <-; vm_compute; reflexivity).
  exists mS, mC. split; [reflexivity|]. split; [reflexivity|]. split; [exact CS|]. split; [exact CC|]. split; [vm_compute; repeat split; discriminate|]. split; [vm_compute; reflexivity|].
  destruct (of_triangles cdt dent_points (walls ++ dent) mS) as (LS & OkS & FS & DS); try assumption.
  { intros f Hf. cbn [walls dent app] in Hf. three_corners. } { intros x Hx. cbn [walls dent app concat] in Hx. small. } { reflexivity. }
  destruct (of_triangles cdt far_points far_faces mC) as (LC & OkC & FC & DC); try assumption.
  { intros f Hf. cbn [far_faces] in Hf. three_corners. } { intros x Hx. cbn [far_faces app concat] in Hx. small. } { reflexivity. }
  assert (PS : forall x y z, In (x, y, z) dent_coords -> x + y + z <= 16000).
  { intros x y z H. cbn [dent_coords dent_points map real_point In] in H. repeat (destruct H as [H|H]; [apply vec_inv in H; lra|]). destruct H. }
  assert (PC : forall x y z, In (x, y, z) (map real_point far_points) -> 42000 <= x + y + z).
  { intros x y z H. cbn [far_points map real_point In] in H. repeat (destruct H as [H|H]; [apply vec_inv in H; lra|]). destruct H. }
  assert (In_pos : forall coords v, (0 <= v < zlen coords)%Z -> In (position coords v) coords).
  { intros coords v Hv. pose proof (position_Some coords v Hv) as E. unfold vget in E. destruct (v <? 0)%Z; [discriminate|]. eapply nth_error_In. exact E. }
  assert (WS : forall p, In p (map real_point far_points) -> winding_number cdt mS dent_coords p = Some 0).
  { intros [[x y] z] Hp. pose proof (PC _ _ _ Hp) as H1. eapply (C81_outside cdt mS dent_coords _ _ (1, 1, 1)); [exact LS|exact OkS|exact FS|exact DS|intros Q; apply vec_inv in Q; lra|].
    intros vs v Hv Hin. pose proof (In_pos dent_coords v (proj2 (OkS vs Hv) v Hin)) as K. destruct (position dent_coords v) as [[a b] c]. pose proof (PS _ _ _ K) as H2. unfold vsub, dot_product. lra. }
  assert (WC : forall p, In p dent_coords -> winding_number cdt mC (map real_point far_points) p = Some 0).
  { intros [[x y] z] Hp. pose proof (PS _ _ _ Hp) as H1. eapply (C81_outside cdt mC (map real_point far_points) _ _ (-1, -1, -1)); [exact LC|exact OkC|exact FC|exact DC|intros Q; apply vec_inv in Q; lra|].
    intros vs v Hv Hin. pose proof (In_pos (map real_point far_points) v (proj2 (OkC vs Hv) v Hin)) as K. destruct (position (map real_point far_points) v) as [[a b] c]. pose proof (PC _ _ _ K) as H2. unfold vsub, dot_product. lra. }
  split; [exact PS|]. split; [exact PC|]. split; [exact WS|]. split; [exact WC|].
  intros inside A. assert (In tip dent_coords) as T by (left; reflexivity).
  assert (A1 : inside Src Cut = false).
  { rewrite (A Src Cut tip 0 eq_refl (WC tip T)). destruct (tells_inside 0) eqn:Q; [|reflexivity]. apply (tells_inside_int 0) in Q. discriminate Q. }
  assert (A2 : inside Src Src = true).
  { destruct (own_winding cdt mS ES CS) as (w & Ew & Tw). rewrite (A Src Src tip w eq_refl Ew). exact Tw. }
  unfold check_type. cbn [negb andb orb]. rewrite A1, A2. reflexivity.
Qed.
Print Assumptions C81_own_vertex_refuted.

(** *** a case for the positive theorems: the tip is in the lidded mesh, a point outside its box is not *)
Theorem C81_case : forall cdt, exists m rows, mesh_of dent_points lidded = Some m /\ closed_about cdt m dent_coords rows tip /\
  generic_ray cdt dent_coords rows tip (3, 2, 1) /\ crossing_number cdt dent_coords rows tip (3, 2, 1) 1 /\
  winding_number cdt m dent_coords tip = Some 1 /\ tells_inside 1 = true /\
  winding_number cdt m dent_coords (20000, 0, 0) = Some 0.
Proof.
  intros cdt. destruct (mesh_of dent_points lidded) as [m|] eqn:E; [|vm_compute in E; discriminate E].
  assert (Cl : mesh_is_closed m = Some true) by (vm_compute in E; injection E as <-; vm_compute; reflexivity).
  destruct (of_triangles cdt dent_points lidded m) as (L & Ok & Cf & Cd); try assumption.
  { intros f Hf. cbn [lidded walls lid app] in Hf. three_corners. } { intros x Hx. cbn [lidded walls lid app concat] in Hx. small. } { reflexivity. }
  fold dent_coords in *. exists m, (map rotate1 lidded). split; [reflexivity|]. split; [exact (conj L (conj Ok (conj Cf (conj Cd (lidded_off cdt)))))|].
  split; [apply lidded_generic|]. split; [apply lidded_crossing|].
  destruct (C81_crossings cdt m dent_coords _ tip (3, 2, 1) L Ok Cf Cd (lidded_off cdt) (lidded_generic cdt)) as (n & W & _ & U).
  assert (n = 1%Z).
  { symmetry. apply U; [|apply lidded_crossing]. intros vs Hv. apply in_map_iff in Hv. destruct Hv as (f & <- & Hf). cbn [lidded walls lid app] in Hf.
    repeat (destruct Hf as [<-|Hf]; [cbn; lia|]). destruct Hf. }
  subst n. split; [exact W|]. split; [apply (tells_inside_int 1); reflexivity|].
  eapply (C81_outside_box cdt m dent_coords _ _ (0, 0, 0) (16000, 16000, 16000)); [exact L|exact Ok|exact Cf|exact Cd| |].
  { intros v i Hv Hi. cbn [lidded walls lid map rotate1 app concat In] in Hv.
    repeat (destruct Hv as [<-|Hv]; [rewrite ?at1, ?at2, ?at3, ?at4, ?at5, ?at6, ?at7; destruct i as [|[|i]]; cbn [comp]; lra|]). destruct Hv. }
  exists 0%nat. split; [lia|]. right. cbn [comp]. lra.
Qed.
