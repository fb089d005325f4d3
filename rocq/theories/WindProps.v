(** Winding numbers of the input meshes (C81). *)
From Coq Require Import List ZArith Reals Lra Lia Psatz Bool Permutation.
From Verif Require Import Vec VecLemmas HmeshModel HmeshSpec HmeshCore HmeshCyc HmeshIter HmeshProps InputModel InputSpec InputProofs InputProps
  DispatchModel ITypeModel ITypeProps GeoModel WindModel WindAngle WindCocycle WindSpec WindRay WindProofs WindGeneric SoupProofs.
Import ListNotations.
Open Scope R_scope.
Ltac Zify.zify_post_hook ::= idtac.

(** [rows]: the vertices of the faces of the mesh, in the order of the loop over the faces. *)
Definition lists (m : hmesh) (rows : list (list Z)) : Prop :=
  exists l, iterate (zlen (faces m)) (rf m) = Some l /\ Forall2 (fun f r => get_vertices_around_face m f = Some r) l rows.

Lemma block_rows cdt m coords q l rows wn : Forall2 (fun f r => get_vertices_around_face m f = Some r) l rows ->
  block_winding cdt m coords q l wn = rows_winding cdt coords q rows wn.
Proof.
  intros F. revert wn. induction F as [|f r l rows E _ IH]; intros wn; [reflexivity|]. cbn [block_winding rows_winding]. rewrite E. cbn [obind].
  destruct (face_winding cdt coords q r); [|reflexivity]. cbn [obind]. apply IH.
Qed.
Lemma winding_rows cdt m coords q rows : lists m rows -> winding_number cdt m coords q = rows_winding cdt coords q rows 0.
Proof. intros (l & E & F). unfold winding_number. rewrite E. cbn [obind]. apply block_rows. exact F. Qed.

(** The winding number of a closed surface about a point off the surface is the number of times a ray
    leaves the surface minus the number of times it enters it; if no face is a quadrilateral there is only
    one way to count. *)
Theorem C81_crossings cdt m coords rows q d : lists m rows -> faces_ok coords rows -> closed_faces rows -> proper_cdt cdt rows ->
  off_surface cdt coords rows q -> generic_ray cdt coords rows q d ->
  exists n, winding_number cdt m coords q = Some (IZR n) /\ crossing_number cdt coords rows q d n /\
    ((forall vs, In vs rows -> length vs <> 4%nat) -> forall n', crossing_number cdt coords rows q d n' -> n' = n).
Proof.
  intros L Ok Cl Cdt Off Gen. destruct (winding_is_crossing cdt coords q d rows Ok Cl Cdt Off Gen) as (n & C & E). exists n.
  split; [rewrite (winding_rows _ _ _ _ _ L); exact E|]. split; [exact C|]. intros N n' C'. exact (crossing_unique cdt coords rows q d n' n N C' C).
Qed.
Print Assumptions C81_crossings.

(** It is a whole number, the same for all rays, and the test of the code, which allows for a difference of
    1e-7, says "inside" exactly if the number is 1. *)
Lemma tells_inside_int n : tells_inside (IZR n) = true <-> n = 1%Z.
Proof.
  unfold tells_inside, winding_eps. split.
  - destruct (ltb_spec (Rabs (1 - IZR n)) (/ 10000000)) as [H|H]; [|discriminate]. intros _. apply Rabs_def2 in H.
    assert (IZR 0 < IZR n) by lra. assert (IZR n < IZR 2) by lra. apply lt_IZR in H0, H1. lia.
  - intros ->. replace (1 - 1) with 0 by ring. rewrite Rabs_R0. destruct (ltb_spec 0 (/ 10000000)); [reflexivity|lra].
Qed.

Theorem C81_whole_number cdt m coords rows q : lists m rows -> faces_ok coords rows -> closed_faces rows -> proper_cdt cdt rows ->
  off_surface cdt coords rows q ->
  exists n, winding_number cdt m coords q = Some (IZR n) /\ (tells_inside (IZR n) = true <-> n = 1%Z) /\
    (exists d, generic_ray cdt coords rows q d) /\ forall d, generic_ray cdt coords rows q d -> crossing_number cdt coords rows q d n.
Proof.
  intros L Ok Cl Cdt Off. destruct (generic_exists cdt coords rows q Off) as (d0 & G0).
  destruct (C81_crossings cdt m coords rows q d0 L Ok Cl Cdt Off G0) as (n & E & _). exists n. split; [exact E|]. split; [apply tells_inside_int|].
  split; [exists d0; exact G0|]. intros d G. destruct (C81_crossings cdt m coords rows q d L Ok Cl Cdt Off G) as (n' & E' & C' & _).
  assert (n = n') by (apply eq_IZR; congruence). subst n'. exact C'.
Qed.
Print Assumptions C81_whole_number.

(** A point separated from the surface by a plane has the winding number 0. *)
Theorem C81_outside cdt m coords rows q d : lists m rows -> faces_ok coords rows -> closed_faces rows -> proper_cdt cdt rows ->
  d <> (0, 0, 0) -> (forall vs v, In vs rows -> In v vs -> dot_product d (vsub (position coords v) q) < 0) ->
  winding_number cdt m coords q = Some 0 /\ tells_inside 0 = false.
Proof.
  intros L Ok Cl Cdt D Sep.
  assert (Sum : forall t u v w a b c, 0 <= t -> 0 <= u -> 0 <= v -> 0 <= w -> u + v + w = 1 -> ray_at q d t = mix u a v b w c ->
     dot_product d (vsub a q) < 0 -> dot_product d (vsub b q) < 0 -> dot_product d (vsub c q) < 0 -> False).
  { clear. intros t u v w a b c T U V W S E A B C.
    assert (X : t * dot_product d d = u * dot_product d (vsub a q) + v * dot_product d (vsub b q) + w * dot_product d (vsub c q)).
    { clear T U V W A B C. destruct q as [[q1 q2] q3], a as [[a1 a2] a3], b as [[b1 b2] b3], c as [[c1 c2] c3], d as [[d1 d2] d3].
      unfold ray_at, mix, vsub, dot_product in *. apply vec_inv in E. destruct E as (E1 & E2 & E3). assert (u = 1 - v - w) by lra. subst u.
      transitivity ((q1 + t * d1 - q1) * d1 + (q2 + t * d2 - q2) * d2 + (q3 + t * d3 - q3) * d3); [ring|]. rewrite E1, E2, E3. ring. }
    pose proof (dot_nonneg d) as N. pose proof (Rmult_le_pos t _ T N).
    assert (0 < u \/ 0 < v \/ 0 < w) as P by lra. destruct P as [P | [P | P]]; nra. }
  assert (Corner : forall vs Ts T, In vs rows -> divides cdt vs Ts -> In T Ts -> forall i, In i (corners T) -> dot_product d (vsub (position coords i) q) < 0).
  { intros vs Ts T Hv Dv HT i Hi. apply (Sep vs i Hv). eapply divides_corner; eassumption. }
  assert (Miss : forall vs Ts T t, In vs rows -> divides cdt vs Ts -> In T Ts -> 0 <= t -> ~ in_triangle (ray_at q d t) (place coords T)).
  { intros vs Ts T t Hv Dv HT Ht Q. pose proof (Corner vs Ts T Hv Dv HT) as K. destruct T as [[i j] k]. cbn [place] in Q.
    destruct Q as (u & v & w & U & V & W & S & E). apply (Sum t u v w _ _ _ Ht U V W S E); apply K; cbn; auto. }
  assert (R0 : ray_at q d 0 = q) by (destruct q as [[? ?] ?], d as [[? ?] ?]; unfold ray_at; apply vec_eq; ring).
  assert (Off : off_surface cdt coords rows q).
  { intros vs Ts T Hv Dv HT Q. apply (Miss vs Ts T 0 Hv Dv HT); [lra|]. rewrite R0. exact Q. }
  assert (Gen : generic_ray cdt coords rows q d).
  { split; [exact D|]. intros vs Ts T i j t Hv Dv HT He Ht (u & v & w & U & V & W & S & E). destruct (edge_corners T i j He) as [Ci Cj].
    pose proof (Corner vs Ts T Hv Dv HT) as K. apply (Sum t u v w _ _ _ Ht U V W S E); apply K; assumption. }
  destruct (C81_crossings cdt m coords rows q d L Ok Cl Cdt Off Gen) as (n & E & C & _).
  assert (Z : n = 0%Z).
  { destruct C as (Tss & ks & F & Ck & <-).
    assert (All : forall T, In T (concat Tss) -> exists vs Ts, In vs rows /\ divides cdt vs Ts /\ In T Ts).
    { clear - F. induction F as [|vs Ts fs Tss Dv _ IH]; intros T HT; [destruct HT|]. cbn [concat] in HT. apply in_app_iff in HT. destruct HT as [HT|HT].
      - exists vs, Ts. split; [left; reflexivity|auto].
      - destruct (IH T HT) as (vs' & Ts' & H1 & H2). exists vs', Ts'. split; [right; exact H1|exact H2]. }
    assert (I : forall p S, inside_triangle p S -> in_triangle p S).
    { intros p [[a b] c] (u & v & w & U & V & W & H). exists u, v, w. intuition lra. }
    clear E F. revert All ks Ck. induction (concat Tss) as [|T l IH]; intros All ks Ck; inversion Ck as [|? k ? ks' Hk Cl']; subst; [reflexivity|].
    change (zsum (k :: ks')) with (k + zsum ks')%Z. rewrite (IH (fun T' H => All T' (or_intror H)) ks' Cl').
    destruct (All T (or_introl eq_refl)) as (vs & Ts & Hv & Dv & HT).
    inversion Hk as [t Ht Hin _|t Ht Hin _|_]; subst; [| |reflexivity]; exfalso; apply (Miss vs Ts T t Hv Dv HT); try lra; apply I; exact Hin. }
  subst n. split; [exact E|]. destruct (tells_inside 0) eqn:Q; [|reflexivity]. apply (tells_inside_int 0) in Q. discriminate Q.
Qed.
Print Assumptions C81_outside.

(** In particular a point outside the box of the surface. *)
Theorem C81_outside_box cdt m coords rows q lo hi : lists m rows -> faces_ok coords rows -> closed_faces rows -> proper_cdt cdt rows ->
  (forall v i, In v (concat rows) -> (i < 3)%nat -> comp lo i <= comp (position coords v) i <= comp hi i) ->
  (exists i, (i < 3)%nat /\ (comp q i < comp lo i \/ comp hi i < comp q i)) ->
  winding_number cdt m coords q = Some 0.
Proof.
  intros L Ok Cl Cdt Box (i & Hi & Out).
  assert (Bx : forall vs v j, In vs rows -> In v vs -> (j < 3)%nat -> comp lo j <= comp (position coords v) j <= comp hi j).
  { intros vs v j Hv Hin Hj. apply Box; [|exact Hj]. apply in_concat. exists vs. auto. }
  destruct Out as [O|O].
  - set (d := match i with O => (-1, 0, 0) | S O => (0, -1, 0) | _ => (0, 0, -1) end : vec3).
    apply (C81_outside cdt m coords rows q d L Ok Cl Cdt).
    + unfold d. destruct i as [|[|i]]; intros E; apply vec_inv in E; lra.
    + intros vs v Hv Hin. pose proof (Bx vs v i Hv Hin Hi) as B. unfold d. destruct (position coords v) as [[x y] z], q as [[q1 q2] q3].
      destruct i as [|[|[|i]]]; [| | |lia]; unfold vsub, dot_product, comp in *; lra.
  - set (d := match i with O => (1, 0, 0) | S O => (0, 1, 0) | _ => (0, 0, 1) end : vec3).
    apply (C81_outside cdt m coords rows q d L Ok Cl Cdt).
    + unfold d. destruct i as [|[|i]]; intros E; apply vec_inv in E; lra.
    + intros vs v Hv Hin. pose proof (Bx vs v i Hv Hin Hi) as B. unfold d. destruct (position coords v) as [[x y] z], q as [[q1 q2] q3].
      destruct i as [|[|[|i]]]; [| | |lia]; unfold vsub, dot_product, comp in *; lra.
Qed.

(** Turning all the faces of a surface of triangles over changes the sign. *)
Lemma solid3_reversed a b c q : solid_angle3 c b a q = - solid_angle3 a b c q.
Proof.
  unfold solid_angle3.
  destruct (eqb (vlen (vsub a q)) 0) eqn:A; destruct (eqb (vlen (vsub b q)) 0) eqn:B; destruct (eqb (vlen (vsub c q)) 0) eqn:C; cbn [orb]; try lra.
  rewrite !numerator_det. fold (dir q a). fold (dir q b). fold (dir q c).
  rewrite <- (det3_cycle (dir q c) (dir q b) (dir q a)), <- (det3_cycle (dir q b) (dir q a) (dir q c)), (det3_swap (dir q a) (dir q b) (dir q c)).
  destruct (eqb_spec (- det3 (dir q a) (dir q b) (dir q c)) 0) as [Z|Z]; destruct (eqb_spec (det3 (dir q a) (dir q b) (dir q c)) 0) as [Z'|Z']; try lra.
  rewrite atan2_opp by exact Z'. rewrite (dot_comm (dir q c) (dir q b)), (dot_comm (dir q c) (dir q a)), (dot_comm (dir q b) (dir q a)).
  replace (1 + dot_product (dir q b) (dir q c) + dot_product (dir q a) (dir q c) + dot_product (dir q a) (dir q b))
    with (1 + dot_product (dir q a) (dir q b) + dot_product (dir q a) (dir q c) + dot_product (dir q b) (dir q c)) by ring.
  field. apply PI_neq0.
Qed.

Theorem C81_reversed cdt m m' coords rows q w : lists m rows -> lists m' (map (@rev Z) rows) -> faces_ok coords rows ->
  (forall vs, In vs rows -> length vs = 3%nat) ->
  winding_number cdt m coords q = Some w -> winding_number cdt m' coords q = Some (- w).
Proof.
  intros HL HL' Ok N3. rewrite (winding_rows _ _ _ _ _ HL), (winding_rows _ _ _ _ _ HL'). clear HL HL'.
  assert (G : forall wn w, rows_winding cdt coords q rows wn = Some w -> rows_winding cdt coords q (map (@rev Z) rows) (- wn) = Some (- w)).
  { revert Ok N3. induction rows as [|vs rows IH]; intros Ok N3 wn w0 E.
    - cbn in *. congruence.
    - cbn [map rows_winding] in *. assert (L3 := N3 vs (or_introl eq_refl)). destruct (Ok vs (or_introl eq_refl)) as [_ Rg].
      destruct vs as [|i [|j [|k [|? ?]]]]; try discriminate L3. cbn [rev app].
      assert (F : forall a b c, (forall v, In v [a; b; c] -> (0 <= v < zlen coords)%Z) -> face_winding cdt coords q [a; b; c] = Some (0 + solid_angle3 (position coords a) (position coords b) (position coords c) q)).
      { clear. intros a b c Rg. unfold face_winding. change (4 <? zlen [a; b; c])%Z with false. change (zlen [a; b; c] =? 4)%Z with false. cbv iota.
        change (vget [a; b; c] 0) with (Some a). change (vget [a; b; c] 1) with (Some b). change (vget [a; b; c] 2) with (Some c). cbn [obind].
        rewrite !position_Some by (apply Rg; cbn; auto). reflexivity. }
      rewrite (F i j k Rg) in E. rewrite (F k j i) by (intros v Hv; apply Rg; cbn in *; tauto). cbn [obind] in *. rewrite solid3_reversed.
      replace (- wn + (0 + - solid_angle3 (position coords i) (position coords j) (position coords k) q))
        with (- (wn + (0 + solid_angle3 (position coords i) (position coords j) (position coords k) q))) by ring.
      apply IH; [intros v Hv; apply Ok; right; exact Hv|intros v Hv; apply N3; right; exact Hv|exact E]. }
  intros E. specialize (G 0 w E). replace (- 0) with 0 in G by ring. exact G.
Qed.

(** ** Threads *)
(** The sum of the threads: whatever the blocks and the interleaving of their compare-and-swap loops, if all
    the threads have finished the shared value is the winding number; and they can always finish. *)
Definition pending (a : adder) : R := match a with Ready w => w | Trying w _ => w | Added => 0 end.
Lemma adders_invariant s s' : adders_run s s' -> fst s' + rsum pending (snd s') = fst s + rsum pending (snd s).
Proof.
  induction 1 as [|s s' s'' St _ IH]; [reflexivity|]. rewrite IH. clear IH. inversion St as [g g' l a a' r A]; subst. cbn [fst snd].
  rewrite !rsum_app. change (rsum pending (a :: r)) with (pending a + rsum pending r). change (rsum pending (a' :: r)) with (pending a' + rsum pending r).
  inversion A; subst; cbn [pending]; ring.
Qed.

Lemma block_app cdt m coords q l r wn : block_winding cdt m coords q (l ++ r) wn = (do w <- block_winding cdt m coords q l wn; block_winding cdt m coords q r w).
Proof.
  revert wn. induction l as [|f l IH]; intros wn; [reflexivity|]. cbn [app block_winding].
  destruct (get_vertices_around_face m f); [|reflexivity]. cbn [obind]. destruct (face_winding cdt coords q l0); [|reflexivity]. cbn [obind]. apply IH.
Qed.
Lemma block_shift cdt m coords q l wn w : block_winding cdt m coords q l 0 = Some w -> block_winding cdt m coords q l wn = Some (wn + w).
Proof.
  assert (G : forall a b c, block_winding cdt m coords q l a = Some c -> block_winding cdt m coords q l b = Some (b - a + c)).
  { induction l as [|f l IH]; intros a b c E; cbn [block_winding] in *; [injection E as <-; f_equal; ring|].
    destruct (get_vertices_around_face m f); [|discriminate]. cbn [obind] in *. destruct (face_winding cdt coords q l0) as [x|]; [|discriminate]. cbn [obind] in *.
    rewrite (IH (a + x) (b + x) c E). f_equal. ring. }
  intros E. rewrite (G 0 wn w E). f_equal. ring.
Qed.

Theorem C81_threads cdt m coords q l parts sums : iterate (zlen (faces m)) (rf m) = Some l -> concat parts = l ->
  Forall2 (fun part s => block_winding cdt m coords q part 0 = Some s) parts sums ->
  (forall g, adders_run (0, map Ready sums) (g, repeat Added (length parts)) -> winding_number cdt m coords q = Some g) /\
  (exists g, adders_run (0, map Ready sums) (g, repeat Added (length parts))) /\
  (forall g ts, adders_run (0, map Ready sums) (g, ts) -> exists g', adders_run (g, ts) (g', repeat Added (length parts))).
Proof.
  intros El Ec F.
  assert (Total : winding_number cdt m coords q = Some (rsum (fun x => x) sums)).
  { unfold winding_number. rewrite El. cbn [obind]. subst l. clear El.
    assert (G : forall wn, block_winding cdt m coords q (concat parts) wn = Some (wn + rsum (fun x => x) sums)).
    { induction F as [|p s parts sums E _ IH]; intros wn; [cbn; f_equal; ring|]. cbn [concat]. rewrite block_app, (block_shift _ _ _ _ _ wn _ E). cbn [obind]. rewrite IH.
      f_equal. change (rsum (fun x => x) (s :: sums)) with (s + rsum (fun x => x) sums). ring. }
    rewrite G. f_equal. ring. }
  assert (App : forall s s' s'', adders_run s s' -> adders_run s' s'' -> adders_run s s'').
  { intros s s' s'' R. induction R as [|a b c St _ IH]; intros R'; [exact R'|]. eapply run_more; [exact St|]. apply IH. exact R'. }
  assert (Fin : forall pre ts g, Forall (fun a => a = Added) pre -> exists g', adders_run (g, pre ++ ts) (g', repeat Added (length pre + length ts))).
  { intros pre ts. revert pre. induction ts as [|a ts IH]; intros pre g Hp.
    - exists g. rewrite app_nil_r. cbn [length]. rewrite Nat.add_0_r. replace (repeat Added (length pre)) with pre; [constructor|].
      clear - Hp. induction Hp as [|x l -> _ IH]; [reflexivity|]. cbn. f_equal. exact IH.
    - assert (X : exists g', adders_run (g, pre ++ a :: ts) (g', pre ++ Added :: ts)).
      { destruct a as [w|w e|].
        - exists (g + w). eapply run_more; [apply adders_one, add_load|]. eapply run_more; [apply adders_one, add_swap|]. constructor.
        - exists (g + w). eapply run_more; [apply adders_one, add_fail|]. eapply run_more; [apply adders_one, add_swap|]. constructor.
        - exists g. constructor. }
      destruct X as (g1 & R1). destruct (IH (pre ++ [Added]) g1) as (g2 & R2); [apply Forall_app; split; [exact Hp|repeat constructor]|].
      exists g2. apply (App _ _ _ R1). rewrite <- app_assoc in R2. cbn [app] in R2. rewrite app_length in R2. cbn [length] in *.
      replace (length pre + S (length ts))%nat with (length pre + 1 + length ts)%nat by lia. exact R2. }
  assert (Len : length (map Ready sums) = length parts) by (rewrite map_length; clear - F; induction F; cbn; congruence).
  split; [|split].
  - intros g R. apply adders_invariant in R. cbn [fst snd] in R. rewrite Total. f_equal.
    assert (Z : rsum pending (repeat Added (length parts)) = 0).
    { generalize (length parts). induction n as [|n IH]; [reflexivity|]. change (0 + rsum pending (repeat Added n) = 0). rewrite IH. ring. }
    rewrite Z, rsum_map in R. cbn [pending] in R. lra.
  - destruct (Fin [] (map Ready sums) 0) as (g & R); [constructor|]. exists g. cbn [length app] in R. rewrite Len in R. exact R.
  - intros g ts R. assert (Lts : length ts = length parts).
    { rewrite <- Len. change (length ts) with (length (snd (g, ts))). change (map Ready sums) with (snd (0, map Ready sums)). clear - R.
      induction R as [|s s' s'' St _ IH]; [reflexivity|]. rewrite IH. inversion St; subst. cbn [snd]. rewrite !app_length. reflexivity. }
    destruct (Fin [] ts g) as (g' & R'); [constructor|]. exists g'. cbn [length app] in R'. rewrite Lts in R'. exact R'.
Qed.
Print Assumptions C81_threads.

(** ** The meshes of the user *)
(** A mesh accepted from the arrays of the user lists its faces as they were given, each starting at its
    second vertex; if the closedness test of the code succeeds the surface is closed. *)
Lemma rotate1_edges f : Permutation (directed_edges (rotate1 f)) (directed_edges f).
Proof.
  unfold directed_edges. destruct f as [|a f]; [reflexivity|]. destruct f as [|b l]; [reflexivity|]. cbn [rotate1].
  change (combine ((b :: l) ++ [a]) (rotate1 ((b :: l) ++ [a]))) with (combine ((b :: l) ++ [a]) ((l ++ [a]) ++ [b])).
  assert (Hl : length (b :: l) = length (l ++ [a])) by (rewrite app_length; cbn; lia).
  rewrite (combine_app_eq (b :: l) [a] (l ++ [a]) [b] Hl). change (combine (a :: b :: l) (b :: l ++ [a])) with ((a, b) :: combine (b :: l) (l ++ [a])).
  change (combine [a] [b]) with [(a, b)]. symmetry. apply Permutation_cons_append.
Qed.
Lemma rotate1_all fs : Permutation (concat (map directed_edges (map rotate1 fs))) (concat (map directed_edges fs)).
Proof. induction fs as [|f fs IH]; [reflexivity|]. cbn [map concat]. apply Permutation_app; [apply rotate1_edges|exact IH]. Qed.

Lemma flip_flip e : flip (flip e) = e. Proof. destruct e. reflexivity. Qed.
Lemma closed_surface_faces fs : NoDup (all_edges fs) -> closed_surface fs -> closed_faces (map rotate1 fs).
Proof.
  intros N C. unfold closed_faces. eapply Permutation_trans; [apply rotate1_all|]. eapply Permutation_trans; [|symmetry; apply Permutation_map, rotate1_all].
  fold (all_edges fs). apply NoDup_Permutation; [exact N| |].
  - apply FinFun.Injective_map_NoDup; [|exact N]. intros x y E. rewrite <- (flip_flip x), E. apply flip_flip.
  - assert (G : forall e, In e (all_edges fs) -> In (flip e) (all_edges fs)).
    { intros [s t] H. apply In_edges in H. destruct H as (f & Hf & H). apply In_edges. destruct (C f s t Hf H) as (g & X & Y). exists g. auto. }
    intros e. rewrite in_map_iff. split; [intros H; exists (flip e); split; [apply flip_flip|apply G, H]|]. intros (x & <- & H). apply G, H.
Qed.

Lemma rows_of_built m fs : rf m = [] -> zlen (faces m) = zlen fs -> (forall i f, vget fs i = Some f -> get_vertices_around_face m i = Some (rotate1 f)) ->
  lists m (map rotate1 fs).
Proof.
  intros Rf Fl Ff. exists (zrange (zlen fs)). rewrite Rf, Fl. split; [apply SoupProofs.iterate_all, zlen_nonneg|].
  unfold zrange. unfold zlen at 1. rewrite Nat2Z.id.
  assert (G : forall pre suf, fs = pre ++ suf -> Forall2 (fun f r => get_vertices_around_face m f = Some r) (map Z.of_nat (seq (length pre) (length suf))) (map rotate1 suf)).
  { intros pre suf. revert pre. induction suf as [|f suf IH]; intros pre E; [constructor|]. cbn [length seq map]. constructor.
    - apply Ff. subst fs. unfold vget. rewrite Nat2Z.id. destruct (Z.ltb_spec (Z.of_nat (length pre)) 0); [lia|]. rewrite nth_error_app2, Nat.sub_diag by lia. reflexivity.
    - specialize (IH (pre ++ [f])). rewrite app_length, Nat.add_1_r in IH. apply IH. rewrite <- app_assoc. exact E. }
  exact (G [] fs eq_refl).
Qed.

Theorem C81_accepted coords0 sizes idx fs m coords :
  describes sizes idx fs -> (forall x, In x (concat fs) -> (0 <= x)%Z) -> (zlen (concat fs) < 2 ^ 31)%Z ->
  seq_convert coords0 sizes idx (zlen fs) = CAccept m -> zlen coords = zlen coords0 ->
  lists m (map rotate1 fs) /\ faces_ok coords (map rotate1 fs) /\ (mesh_is_closed m = Some true -> closed_faces (map rotate1 fs)).
Proof.
  intros D Hr Hl E Lc. destruct (seq_convert_spec coords0 sizes idx fs D Hr Hl) as (m0 & _ & B & R1 & R2).
  rewrite E in *. destruct (all_good_dec (zlen coords0) fs Hr) as [G|Bd]; [|discriminate (R2 Bd)].
  assert (N0 : NoDup (all_edges [])) by constructor.
  pose proof (insert_all_spec coords0 fs [] m0 B N0 G) as S. rewrite <- (R1 G) in S. destruct S as [Nd S]. cbn [app] in *.
  split; [apply rows_of_built; apply S|]. split.
  - intros vs Hv. apply in_map_iff in Hv. destruct Hv as (f & <- & Hf). destruct (G f Hf) as [G3 Gd Gr]. split.
    + destruct f as [|a f]; [exact G3|]. cbn [rotate1]. rewrite app_length. cbn in *. lia.
    + intros v Hv. apply (proj1 (In_rotate1 _ _)) in Hv. rewrite Lc. apply Gr, Hv.
  - intros Cm. apply closed_surface_faces; [exact Nd|]. destruct (built_closed coords0 fs m S) as (b & Eb & X). apply X. congruence.
Qed.
