(** Property theorem C19 (connected components of a mesh). *)
From Coq Require Import List ZArith Lia Bool Relations Permutation.
From Verif Require Import Vec VecLemmas HmeshModel HmeshSpec HmeshProps ParModel ParProofs InputModel InputSpec InputProofs CompModel CompSpec CompProofs.
Import ListNotations.
Open Scope Z_scope.

(** C19.  For every mesh that the editing API can produce and that has no gaps in its numbering (so
    for every mesh made from user arrays), the computation ends without an access outside its
    vectors; component numbers, their number, and the counts of vertices and
    faces per component are those of the connected components of the mesh. *)
Theorem C19_components_correct : forall m, history m -> dense m ->
  exists bound, forall fuel, (bound <= fuel)%nat ->
    exists reps r, find_connected_components fuel m = Some r /\ describes_components m reps r.
Proof.
  intros m H D. exists (Z.to_nat (enough m)). intros fuel Hf. apply components_spec; [exact H|exact D|]. lia.
Qed.
Print Assumptions C19_components_correct.

(** C19, numbers of faces: they are 0 .. n-1, all of them have a vertex, and two faces get the same number exactly when a path of
    edges joins them. *)
Theorem C19_face_numbers : forall m, history m -> dense m ->
  exists bound, forall fuel, (bound <= fuel)%nat -> exists r, find_connected_components fuel m = Some r /\
    forall f g vf vg a b, live_face m f -> live_face m g ->
      get_vertices_around_face m f = Some vf -> get_vertices_around_face m g = Some vg -> In a vf -> In b vg ->
      exists k l, vget (face_component r) f = Some k /\ vget (face_component r) g = Some l /\
        0 <= k < n_components r /\ (k = l <-> connected m a b).
Proof.
  intros m H D. destruct (C19_components_correct m H D) as [bound Hb]. exists bound. intros fuel Hf. destruct (Hb fuel Hf) as (reps & r & E & S).
  exists r. split; [exact E|]. intros f g vf vg a b Lf Lg Ef Eg Ha Hb'. pose proof (C12_connectivity_consistent m H) as C.
  destruct (dc_face _ _ _ S f vf Lf Ef) as (k & u & K1 & K2 & K3). destruct (dc_face _ _ _ S g vg Lg Eg) as (l & w & L1 & L2 & L3).
  exists k, l. split; [exact K1|]. split; [exact L1|]. split; [rewrite (dc_n _ _ _ S); eapply vget_Some_range; exact K2|]. split.
  - intros ->. assert (w = u) by congruence. subst w. eapply rt_trans; [apply connected_sym; [exact C|apply K3; exact Ha]|apply L3; exact Hb'].
  - intros Kc. apply (dc_disjoint _ _ _ S k l u w K2 L2). eapply rt_trans; [apply K3; exact Ha|]. eapply rt_trans; [exact Kc|]. apply connected_sym; [exact C|]. apply L3. exact Hb'.
Qed.
Print Assumptions C19_face_numbers.

(** C19, input check: a mesh passes exactly when it has at least three vertices, at least
    one face, and is one connected piece (isolated vertices count as pieces). *)
Theorem C19_input_mesh_check : forall m, history m -> dense m ->
  exists bound, forall fuel, (bound <= fuel)%nat -> exists ok, check_input_mesh fuel m = Some ok /\
    (ok = true <-> 3 <= number_of_vertices m /\ 1 <= number_of_faces m /\
                   forall a b, live_vertex m a -> live_vertex m b -> connected m a b).
Proof.
  intros m H D. destruct (C19_components_correct m H D) as [bound Hb]. exists bound. intros fuel Hf. unfold check_input_mesh.
  destruct (Z.ltb_spec (number_of_vertices m) 3) as [V|V]; [exists false; split; [reflexivity|]; split; [discriminate|lia]|].
  destruct (Z.ltb_spec (number_of_faces m) 1) as [Fc|Fc]; [exists false; split; [reflexivity|]; split; [discriminate|lia]|].
  destruct (Hb fuel Hf) as (reps & r & E & S). rewrite E. cbn [obind]. pose proof (C12_connectivity_consistent m H) as C.
  destruct (Z.eqb_spec (n_components r) 1) as [N1|N1]; cbn [negb].
  - exists true. split; [reflexivity|]. split; [intros _|reflexivity]. split; [exact V|]. split; [exact Fc|]. intros a b La Lb. rewrite (dc_n _ _ _ S) in N1.
    destruct (dc_cover _ _ _ S a La) as (i & u & Ei & Ka). destruct (dc_cover _ _ _ S b Lb) as (j & w & Ej & Kb).
    assert (i = j) by (apply vget_Some_range in Ei; apply vget_Some_range in Ej; lia). subst j. assert (w = u) by congruence. subst w.
    eapply rt_trans; [apply connected_sym; [exact C|exact Ka]|exact Kb].
  - exists false. split; [reflexivity|]. split; [discriminate|]. intros (_ & _ & Kc). exfalso. apply N1. rewrite (dc_n _ _ _ S).
    assert (L0 : live_vertex m 0) by (apply D; lia). destruct (dc_cover _ _ _ S 0 L0) as (i & u & Ei & _). pose proof (vget_Some_range _ _ _ Ei) as Ri.
    destruct (Z_lt_le_dec 1 (zlen reps)) as [K|K]; [|lia]. destruct (vget_range_Some reps 0) as [x Ex]; [lia|]. destruct (vget_range_Some reps 1) as [y Ey]; [lia|].
    pose proof (dc_disjoint _ _ _ S 0 1 x y Ex Ey) as Q. assert (0 = 1); [|lia]. apply Q. apply Kc; apply (dc_live _ _ _ S); eapply vget_In; eassumption.
Qed.
Print Assumptions C19_input_mesh_check.

(** The hypotheses hold for every mesh made from user arrays (C17). *)
Lemma converted_mesh_dense coords fs m : mirrors coords fs m -> dense m.
Proof.
  intros R. split.
  - intros v. rewrite (mr_nv _ _ _ R). apply (mr_v _ _ _ R).
  - intros f. rewrite (mr_nf _ _ _ R). apply (mr_f _ _ _ R).
Qed.

(** C19 and C17 together: what the user's arrays must satisfy for the dispatch to accept the
    mesh. *)
Theorem C19_accepted_user_mesh : forall coords sizes idx fs,
  describes sizes idx fs -> (forall x, In x (concat fs) -> 0 <= x) -> zlen (concat fs) < 2 ^ 31 ->
  well_formed (zlen coords) fs ->
  exists m, seq_convert coords sizes idx (zlen fs) = CAccept m /\
  exists bound, forall fuel, (bound <= fuel)%nat -> exists ok, check_input_mesh fuel m = Some ok /\
    (ok = true <-> 3 <= zlen coords /\ 1 <= zlen fs /\
       forall a b, 0 <= a < zlen coords -> 0 <= b < zlen coords ->
         clos_refl_sym_trans Z (fun s t => exists f, In f fs /\ In (s, t) (directed_edges f)) a b).
Proof.
  intros coords sizes idx fs Ds Hr Hl W. destruct (seq_convert_spec coords sizes idx fs Ds Hr Hl) as (m0 & _ & B & R).
  destruct (result_spec coords m0 fs _ B Hr R) as [X _]. destruct (X W) as (m & E & Hm & Mr). exists m. split; [exact E|].
  destruct (C19_input_mesh_check m Hm (converted_mesh_dense _ _ _ Mr)) as [bound Hb]. exists bound. intros fuel Hf. destruct (Hb fuel Hf) as (ok & Eo & Ok). exists ok. split; [exact Eo|].
  rewrite Ok, (mr_nv _ _ _ Mr), (mr_nf _ _ _ Mr). pose proof (C12_connectivity_consistent m Hm) as C.
  assert (A1 : forall s t f, In f fs -> In (s, t) (directed_edges f) -> connected m s t).
  { intros s t f Hf' Hst. destruct (In_vget fs f Hf') as [i Ei]. pose proof (mr_face _ _ _ Mr i f Ei) as Ev.
    assert (Lf : live_face m i) by (apply (mr_f _ _ _ Mr); eapply vget_Some_range; exact Ei).
    destruct (face_front m C (converted_mesh_dense _ _ _ Mr) i Lf) as (v & vs & Ev' & Hw).
    assert (Eq : rotate1 f = v :: vs) by congruence. unfold directed_edges in Hst.
    assert (Hs : In s (rotate1 f)). { apply in_combine_l in Hst. destruct f as [|x f']; [destruct Hst|]. cbn. apply in_or_app. destruct Hst as [->|K]; [right; left; reflexivity|left; exact K]. }
    apply in_combine_r in Hst. rewrite Eq in Hs, Hst. eapply rt_trans; [apply connected_sym; [exact C|apply Hw; exact Hs]|apply Hw; exact Hst]. }
  assert (Q : forall a b, connected m a b <-> clos_refl_sym_trans Z (fun s t => exists f, In f fs /\ In (s, t) (directed_edges f)) a b).
  { intros a b. split.
    - induction 1 as [x y (h & Lh & Sh & Th)| |x y z _ I1 _ I2]; [|apply rst_refl|eapply rst_trans; eassumption].
      assert (Y : forall p q, In (p, q) (concat (map directed_edges fs)) -> exists f, In f fs /\ In (p, q) (directed_edges f)).
      { intros p q K. apply in_concat in K. destruct K as (l & K1 & K2). apply in_map_iff in K1. destruct K1 as (f & <- & Hf'). exists f. auto. }
      destruct (mr_edges _ _ _ Mr x y h Lh Sh Th) as [K|K]; [apply rst_step, Y, K|apply rst_sym, rst_step, Y, K].
    - induction 1 as [x y (f & Hf' & K)| |x y _ I1|x y z _ I1 _ I2]; [eapply A1; eassumption|apply rt_refl|apply connected_sym; assumption|eapply rt_trans; eassumption]. }
  split; intros (V & Fc & K); (split; [exact V|]; split; [exact Fc|]).
  - intros a b Ha Hb'. apply Q, K; apply (mr_v _ _ _ Mr); assumption.
  - intros a b La Lb. apply Q, K; apply (mr_v _ _ _ Mr); assumption.
Qed.
Print Assumptions C19_accepted_user_mesh.

(** ** With the helper thread pool *)
Lemma actions_spec m vis n order : (forall f a, In a order -> In a (face_actions f) -> 0 <= f < number_of_faces m) ->
  (forall f, 0 <= f < number_of_faces m -> exists c, front_component m vis f = Some c /\ 0 <= c < n) ->
  forall s, zlen (f_num s) = number_of_faces m -> zlen (f_cnt s) = n ->
  exists s', ofold (do_action m vis) order s = Some s' /\ zlen (f_num s') = number_of_faces m /\
    forall f, vget (f_num s') f = vget (f_num s) f \/ vget (f_num s') f = front_component m vis f.
Proof.
  intros Hr Hc. induction order as [|a order IH]; intros s L1 L2; cbn [ofold].
  - exists s. auto.
  - assert (Hr' : forall f b, In b order -> In b (face_actions f) -> 0 <= f < number_of_faces m) by (intros f b Hb; apply Hr; right; exact Hb).
    destruct a as [f|f|f]; cbn [do_action];
      (assert (Hf : 0 <= f < number_of_faces m) by (eapply Hr; [left; reflexivity|unfold face_actions; cbn; tauto]));
      destruct (Hc f Hf) as (c & Ec & Rc); rewrite Ec; cbn [obind].
    + rewrite (vset_Some (f_num s) f c) by lia. cbn [obind]. set (l := lset (f_num s) (Z.to_nat f) c).
      assert (Vs : vset (f_num s) f c = Some l) by (apply vset_Some; lia).
      destruct (IH Hr' (FS l (f_cnt s) (f_reg s))) as (s' & E & L & V); [cbn; rewrite (vset_len _ _ _ _ Vs); exact L1|exact L2|].
      exists s'. split; [exact E|]. split; [exact L|]. intros g. destruct (V g) as [K|K]; [|right; exact K]. cbn in K. destruct (Z.eq_dec g f) as [->|Ng].
      * right. rewrite K, Ec. apply (vget_vset_eq _ _ _ _ Vs).
      * left. rewrite K. apply (vget_vset_neq _ _ _ _ _ Vs). congruence.
    + destruct (vget_range_Some (f_cnt s) c) as [x Ex]; [lia|]. rewrite Ex. cbn [obind].
      destruct (IH Hr' (FS (f_num s) (f_cnt s) (fun g => if g =? f then x else f_reg s g)) L1 L2) as (s' & E & L & V). exists s'. auto.
    + rewrite (vset_Some (f_cnt s) c _) by lia. cbn [obind].
      destruct (IH Hr' (FS (f_num s) (lset (f_cnt s) (Z.to_nat c) (f_reg s f + 1)) (f_reg s)) L1) as (s' & E & L & V); [cbn; unfold zlen; rewrite lset_length; exact L2|]. exists s'. auto.
Qed.

Lemma actions_set m vis order f : In (SetNumber f) order -> forall s s', ofold (do_action m vis) order s = Some s' ->
  vget (f_num s') f = front_component m vis f.
Proof.
  assert (Keep : forall order s s', ofold (do_action m vis) order s = Some s' -> vget (f_num s) f = front_component m vis f -> vget (f_num s') f = front_component m vis f).
  { clear order. induction order as [|a order IH]; intros s s' E K; cbn [ofold] in E; [injection E as <-; exact K|].
    destruct (do_action m vis s a) as [s1|] eqn:Ea; [|discriminate]. cbn [obind] in E. apply (IH s1 s' E). destruct a as [g|g|g]; cbn [do_action] in Ea;
      (destruct (front_component m vis g) as [c|] eqn:Ec; [|discriminate]); cbn [obind] in Ea.
    - destruct (vset (f_num s) g c) as [l|] eqn:Es; [|discriminate]. injection Ea as <-. cbn. destruct (Z.eq_dec f g) as [->|Ng]; [rewrite Ec; apply (vget_vset_eq _ _ _ _ Es)|].
      rewrite (vget_vset_neq _ _ _ _ _ Es) by congruence. exact K.
    - destruct (vget (f_cnt s) c); [|discriminate]. injection Ea as <-. exact K.
    - destruct (vset (f_cnt s) c _); [|discriminate]. injection Ea as <-. exact K. }
  induction order as [|a order IH]; intros Hin s s' E; [destruct Hin|]. cbn [ofold] in E. destruct (do_action m vis s a) as [s1|] eqn:Ea; [|discriminate]. cbn [obind] in E.
  destruct Hin as [->|Hin]; [|eapply IH; eassumption]. apply (Keep order s1 s' E). cbn [do_action] in Ea.
  destruct (front_component m vis f) as [c|]; [|discriminate]. cbn [obind] in Ea. destruct (vset (f_num s) f c) as [l|] eqn:Es; [|discriminate]. injection Ea as <-. cbn. apply (vget_vset_eq _ _ _ _ Es).
Qed.

Lemma vget_ext {A} (a b : list A) : zlen a = zlen b -> (forall i, 0 <= i < zlen a -> vget a i = vget b i) -> a = b.
Proof.
  unfold zlen. revert b. induction a as [|x a IH]; intros [|y b] L H; try reflexivity; try (exfalso; cbn [length] in L; lia).
  assert (x = y). { specialize (H 0). cbn [length] in H. assert (K : vget (x :: a) 0 = vget (y :: b) 0) by (apply H; lia). cbn in K. congruence. } subst y. f_equal. apply IH; [cbn [length] in L; lia|].
  intros i Hi. specialize (H (i + 1)). cbn [length] in H. assert (K : vget (x :: a) (i + 1) = vget (x :: b) (i + 1)) by (apply H; lia). unfold vget in *.
  destruct (Z.ltb_spec (i + 1) 0); [lia|]. destruct (Z.ltb_spec i 0); [lia|]. replace (Z.to_nat (i + 1)) with (S (Z.to_nat i)) in K by lia. exact K.
Qed.

(** C19, thread pool: in every interleaving the loop is free of invalid accesses and the faces get
    the numbers of the single-threaded loop (C19_components_correct). *)
Theorem C19_parallel_face_numbers : forall m pool, history m -> dense m ->
  1 <= number_of_faces m -> number_of_faces m + 1023 < 2 ^ 32 -> 0 <= pool < 2 ^ 32 - 1 ->
  exists bound, forall fuel, (bound <= fuel)%nat -> exists cc st r,
    label_vertices fuel m = Some (cc, st) /\ find_connected_components fuel m = Some r /\ n_components r = cc + 1 /\
    (exists result, parallel_face_loop pool m (visited st) (cc + 1) result) /\
    forall result, parallel_face_loop pool m (visited st) (cc + 1) result ->
      exists s, result = Some s /\ f_num s = face_component r.
Proof.
  intros m pool H D HF HO HP. destruct (C19_components_correct m H D) as [bound Hb]. exists bound. intros fuel Hf. destruct (Hb fuel Hf) as (reps & r & E & S).
  pose proof (C12_connectivity_consistent m H) as C. destruct (C16_iteration_and_counts_agree m H) as (_ & _ & _ & (fs & Ef & _ & Ifs & Nf & Lf) & _).
  pose proof E as E'. unfold find_connected_components in E'. destruct (label_vertices fuel m) as [[cc st]|] eqn:El; [|discriminate]. cbn [obind] in E'.
  exists cc, st, r. split; [reflexivity|]. split; [exact E|]. rewrite Ef in E'. cbn [obind] in E'.
  destruct (ofold (map_face m (visited st)) fs _) as [[fcc fc]|] eqn:Em; [|discriminate]. cbn [obind fst snd] in E'. injection E' as Er.
  assert (En : n_components r = cc + 1) by (rewrite <- Er; reflexivity). assert (Ec : face_component r = fcc) by (rewrite <- Er; reflexivity).
  split; [exact En|].
  (* the numbers of the sequential loop *)
  assert (Hseq : forall f, 0 <= f < number_of_faces m -> front_component m (visited st) f = vget fcc f).
  { assert (G : forall l s s', NoDup l -> ofold (map_face m (visited st)) l s = Some s' -> forall f,
        (In f l -> front_component m (visited st) f = vget (fst s') f) /\ (~ In f l -> vget (fst s') f = vget (fst s) f)).
    { induction l as [|g l IH]; intros s s' Nd Eo f; cbn [ofold] in Eo; [injection Eo as <-; split; [intros []|reflexivity]|].
      destruct (map_face m (visited st) s g) as [s1|] eqn:Eg; [|discriminate]. cbn [obind] in Eo. inversion Nd as [|? ? Ng Nl]; subst. destruct (IH s1 s' Nl Eo f) as [K1 K2].
      destruct s as [a b]. unfold map_face in Eg. destruct (get_vertices_around_face m g) as [[|v vs]|] eqn:Ev; try discriminate. cbn [obind] in Eg.
      destruct (vget (visited st) v) as [c|] eqn:Evc; [|discriminate]. cbn [obind] in Eg. destruct (vset a g c) as [a'|] eqn:Ea; [|discriminate]. cbn [obind] in Eg.
      destruct (vget b c) as [y|]; [|discriminate]. cbn [obind] in Eg. destruct (vset b c (y + 1)) as [b'|]; [|discriminate]. injection Eg as <-. cbn [fst] in *.
      split.
      - intros [<-|Hin]; [|apply K1; exact Hin]. rewrite K2 by exact Ng. rewrite (vget_vset_eq _ _ _ _ Ea). unfold front_component. rewrite Ev. cbn [obind]. exact Evc.
      - intros Nin. rewrite K2 by (intros K; apply Nin; right; exact K). apply (vget_vset_neq _ _ _ _ _ Ea). intros ->. apply Nin. left. reflexivity. }
    intros f Hfr. assert (Hin : In f fs) by (apply Ifs, D, Hfr). apply (G fs _ _ Nf Em f). exact Hin. }
  assert (Hfront : forall f, 0 <= f < number_of_faces m -> exists c, front_component m (visited st) f = Some c /\ 0 <= c < cc + 1).
  { intros f Hfr. rewrite (Hseq f Hfr). assert (Lv : live_face m f) by (apply D; exact Hfr). destruct (face_front m C D f Lv) as (v & vs & Ev & _).
    destruct (dc_face _ _ _ S f _ Lv Ev) as (k & u & K1 & K2 & _). rewrite Ec in K1. exists k. split; [exact K1|]. apply vget_Some_range in K2. rewrite <- En, (dc_n _ _ _ S). exact K2. }
  assert (P1 : 1 <= 1024) by lia. assert (P2 : number_of_faces m + 1024 - 1 < 2 ^ 32) by lia.
  destruct (plan_ok pool (number_of_faces m) 1024 HF HP P1 P2) as (w & ms & Ep & _ & Ecat & _).
  split.
  - eexists. exists w, ms, (concat (map (fun b => flat_map face_actions (elements b)) (w ++ [ms]))). split; [exact Ep|]. split; [apply interleaving_seq|reflexivity].
  - intros result (w' & ms' & order & Ep' & Il & ->). rewrite Ep in Ep'. injection Ep' as <- <-. apply interleaving_perm in Il.
    assert (Ecat' : concat (map (fun b => flat_map face_actions (elements b)) (w ++ [ms])) = flat_map face_actions (zrange (number_of_faces m))).
    { rewrite <- Ecat. generalize (w ++ [ms]). clear. induction l as [|b l IH]; [reflexivity|]. cbn [map concat]. rewrite flat_map_app, IH. reflexivity. }
    rewrite Ecat' in Il.
    assert (F0 : 0 <= number_of_faces m) by lia.
    assert (Cc : 0 <= cc + 1) by (destruct (Hfront 0 ltac:(lia)) as (c & _ & K); lia).
    destruct (actions_spec m (visited st) (cc + 1) order) with (s := FS (repeat 0 (Z.to_nat (number_of_faces m))) (repeat 0 (Z.to_nat (cc + 1))) (fun _ => 0)) as (s' & Es & Ls & _).
    + intros f a Ha Hfa. apply (Permutation_in a (Permutation_sym Il)) in Ha. apply in_flat_map in Ha. destruct Ha as (g & Hg & Hga). apply In_zrange in Hg.
      assert (f = g); [|subst; exact Hg]. cbn in Hfa, Hga. destruct Hfa as [<-|[<-|[<-|[]]]]; destruct Hga as [K|[K|[K|[]]]]; congruence.
    + exact Hfront.
    + apply zlen_repeat. exact F0.
    + apply zlen_repeat. exact Cc.
    + exists s'. split; [exact Es|]. apply vget_ext.
      * rewrite Ls, (dc_flen _ _ _ S). reflexivity.
      * intros f Hfr. rewrite Ls in Hfr. rewrite Ec, <- (Hseq f Hfr). refine (actions_set m (visited st) order f _ _ s' Es).
        apply (Permutation_in _ Il). apply in_flat_map. exists f. split; [apply In_zrange; exact Hfr|left; reflexivity].
Qed.
Print Assumptions C19_parallel_face_numbers.

(** ** Concrete instances: two triangles sharing an edge, and the same with an isolated vertex *)
Definition pair_mesh : hmesh := match run_ok hempty (firstn 4 tri_ops ++ [OFace [0;1;2]; OFace [2;1;3]]) with Some m => m | None => hempty end.
Definition lone_mesh : hmesh := match run_ok hempty (firstn 4 tri_ops ++ [OFace [0;1;2]]) with Some m => m | None => hempty end.
Lemma pair_history : history pair_mesh.
Proof. apply (run_ok_history (firstn 4 tri_ops ++ [OFace [0;1;2]; OFace [2;1;3]]) hempty); [constructor|]. vm_compute. reflexivity. Qed.
Lemma small_dense m : rv m = [] -> rf m = [] -> dense m.
Proof.
  intros E1 E2. unfold dense, live_vertex, live_face, number_of_vertices, number_of_faces. rewrite E1, E2. change (zlen (@nil Z)) with 0.
  split; intros x; split; [intros [K _]; lia|intros K; split; [lia|intros []]|intros [K _]; lia|intros K; split; [lia|intros []]].
Qed.
Example C19_instance : history pair_mesh /\ dense pair_mesh /\
  option_map (fun r => (n_components r, face_component r, vertices_in r, faces_in r)) (find_connected_components 100 pair_mesh) = Some (1, [0; 0], [4], [2]) /\
  check_input_mesh 100 pair_mesh = Some true.
Proof. split; [apply pair_history|]. split; [apply small_dense; vm_compute; reflexivity|]. split; vm_compute; reflexivity. Qed.
Example C19_instance_disconnected :
  option_map (fun r => (n_components r, face_component r, vertices_in r, faces_in r)) (find_connected_components 100 lone_mesh) = Some (2, [0], [3; 1], [1; 0]) /\
  check_input_mesh 100 lone_mesh = Some false.
Proof. split; vm_compute; reflexivity. Qed.
