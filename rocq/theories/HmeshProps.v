(** Property theorems C12-C16 and C49 (half-edge mesh). *)
From Coq Require Import List ZArith Lia Bool.
From Verif Require Import Vec VecLemmas HmeshModel HmeshSpec HmeshCore HmeshCyc HmeshFaces HmeshAdd HmeshRemove HmeshIter ParModel HmeshParModel.
Import ListNotations.
Open Scope Z_scope.

Lemma HInv_consistent m : HInv m -> consistent m.
Proof.
  intros [C F]. pose proof (c_len m C) as CL.
  assert (Le : forall h, lh m h -> live_edge m (h / 2)) by (intros h [R N]; split; [lia|exact N]).
  constructor.
  - intros h Hh. apply (lh_live m h C) in Hh. rewrite (lh_live m _ C). split; [apply lh_opposite; assumption|]. split; [apply opposite_neq|].
    split; [apply opposite_opposite|]. split; [apply opposite_div|]. split; [apply Le; exact Hh|]. unfold edge_of, edge_halfedge. destruct (he_cases h); lia.
  - intros e [R N]. rewrite !(lh_live m _ C). unfold edge_halfedge, lh. rewrite Z.mul_comm, Z.add_0_r, div_even, div_odd. split; [split; [lia|exact N]|]. split; [split; [lia|exact N]|]. apply opposite_even.
  - intros h Hh. apply (lh_live m h C) in Hh. destruct (lh_hget m h Hh) as [d E].
    destruct (source_target m h d C Hh E) as (d' & E' & S & T & Nt). pose proof (lh_opposite m h C Hh) as Lo.
    destruct (source_target m _ d' C Lo E') as (d2 & E2 & S2 & T2 & _). rewrite opposite_opposite in E2. assert (d2 = d) by congruence. subst d2.
    exists (ht d'), (ht d). split; [exact S|]. split; [exact T|]. split; [congruence|]. split; [apply (c_he m C _ _ Lo E')|]. split; [apply (c_he m C _ _ Hh E)|]. split; assumption.
  - intros f [R N]. destruct (vget_range_Some _ _ R) as [hs E]. exists hs. split; [exact E|]. assert (Nf : f <> null) by (unfold null; lia).
    destruct (f_face _ _ _ F f hs Nf N E) as (G1 & G2 & G3 & G4). split; [exact G1|]. split; [exact G2|]. split.
    + intros h Hh. destruct (G3 h Hh) as (L & d & Ed & Kd). split; [apply (lh_live m h C); exact L|]. unfold face. rewrite Ed. cbn. congruence.
    + intros a b Hab. destruct (G4 a b Hab) as (da & db & db' & E1 & E2 & E3 & K1 & K2 & K3). unfold next, prev. rewrite E1, E2. cbn. split; [congruence|]. split; [congruence|].
      apply cyc_In in Hab. destruct (G3 b (proj2 Hab)) as (Lb & _). destruct (source_target m b db C Lb E2) as (x & Ex & Sx & _). rewrite Sx. rewrite (target_ht m a da E1). congruence.
  - intros h f Hh Ef Nf. apply (lh_live m h C) in Hh. destruct (lh_hget m h Hh) as [d E]. unfold face in Ef. rewrite E in Ef. cbn in Ef. injection Ef as Ef.
    destruct (proj2 (f_he _ _ _ F h d E)) as [(_ & [] & _)|(_ & K & hs & K1 & K2)]; [congruence|]. rewrite Ef in *. split; [split; [exact (vget_Some_range _ _ _ K1)|exact K]|]. exists hs. auto.
  - intros v d Hv E. split; [exact (c_nodup m C v d E)|]. intros h. rewrite (lh_live m h C), (c_inc m C v d E h). unfold target. split.
    + intros (L & hd & Eh & T). split; [exact L|]. rewrite Eh. cbn. congruence.
    + intros (L & T). split; [exact L|]. destruct (hget m h) as [hd|]; [|discriminate]. cbn in T. exists hd. split; [reflexivity|congruence].
Qed.

Lemma exec_inv m o : HInv m -> allowed m o ->
  (exists m', exec m o = Some m' /\ HInv m') \/ (exists vi m', o = OFace vi /\ add_face m vi = Rejected m').
Proof.
  intros I A. destruct o as [p|a b|vi|f|e|v|]; cbn in *.
  - left. destruct (add_vertex_spec m p (proj1 I)) as (v & m' & E & K). rewrite E. exists m'. split; [reflexivity|]. eapply vertex_added_inv; [exact I| |exact K].
    intros d Ed Rv. exact (removed_vertex_empty m v d (proj1 I) Ed Rv).
  - left. destruct A as (La & Lb & N). destruct (add_edge_spec m a b (proj1 I) La Lb N) as (e & m' & E & K). rewrite E. exists m'. split; [reflexivity|].
    split; [eapply edge_added_core; try exact K; try assumption; apply I|eapply edge_added_finv; [apply I|apply I|exact K]].
  - destruct A as (L3 & Nd & Lv). pose proof (add_face_spec m vi I L3 Nd Lv) as S. destruct (add_face m vi) as [f m'|m'|] eqn:Ea; [left|right|destruct S].
    + exists m'. split; [reflexivity|apply S].
    + exists vi, m'. split; [reflexivity|exact Ea].
  - left. destruct (remove_face_spec m f I A) as (m' & E & K). exists m'. split; [exact E|apply K].
  - left. destruct A as (L & Z0 & Z1). destruct (remove_edge_spec m e I L Z0 Z1) as (m' & E & K). exists m'. split; [exact E|]. eapply edge_removed_inv; eassumption.
  - left. destruct A as (L & d & E & Em). eexists. split; [reflexivity|]. eapply remove_vertex_inv; eassumption.
  - left. exists hempty. split; [reflexivity|apply hempty_inv].
Qed.

Lemma history_inv m : history m -> HInv m.
Proof.
  induction 1 as [|m o m' H IH A E]; [apply hempty_inv|]. destruct (exec_inv m o IH A) as [(m2 & E2 & K)|(vi & m2 & -> & R)]; [congruence|].
  cbn in E. rewrite R in E. discriminate.
Qed.

(** C12.  After any sequence of allowed calls the connectivity is consistent. *)
Theorem C12_connectivity_consistent : forall m, history m -> consistent m.
Proof. intros m H. apply HInv_consistent, history_inv, H. Qed.
Print Assumptions C12_connectivity_consistent.

(** C12.  No allowed call has undefined behaviour: each of them succeeds, except that the
    insertion of a face may be rejected. *)
Theorem C12_allowed_calls_are_safe : forall m o, history m -> allowed m o ->
  (exists m', exec m o = Some m') \/ (exists vi m', o = OFace vi /\ add_face m vi = Rejected m').
Proof.
  intros m o H A. destruct (exec_inv m o (history_inv m H) A) as [(m' & E & _)|K]; [left; eauto|right; exact K].
Qed.
Print Assumptions C12_allowed_calls_are_safe.

(** C12.  Removing a face removes that face only: the other faces keep their cycles, and
    every vertex and half-edge stays, with its end points; the half-edges of the removed face
    have no face afterwards. *)
Theorem C12_remove_face_effect : forall m f m', history m -> live_face m f -> remove_face m f = Some m' ->
  ~ live_face m' f /\
  (forall g, g <> f -> live_face m g -> live_face m' g /\
     get_halfedges_around_face m' g = get_halfedges_around_face m g /\
     get_vertices_around_face m' g = get_vertices_around_face m g) /\
  (forall v, live_vertex m' v <-> live_vertex m v) /\ verts m' = verts m /\
  (forall h, live_halfedge m' h <-> live_halfedge m h) /\
  (forall h, live_halfedge m h -> source m' h = source m h /\ target m' h = target m h /\
     (face m h = Some f -> face m' h = Some null) /\ (face m h <> Some f -> face m' h = face m h)).
Proof.
  intros m f m' H L E. pose proof (history_inv m H) as I. destruct (remove_face_spec m f I L) as (m2 & E2 & K). assert (m2 = m') by congruence. subst m2.
  destruct I as [C F]. pose proof (fr_soft _ _ _ K) as S. pose proof (proj1 (fr_inv _ _ _ K)) as C'.
  assert (T : forall h, target m' h = target m h).
  { intros h. unfold target. destruct (hget m h) as [d|] eqn:Eh.
    - destruct (s_he _ _ S h d Eh) as (d' & E' & T & _). rewrite E'. cbn. congruence.
    - destruct (hget m' h) as [d'|] eqn:Eh'; [|reflexivity]. destruct (soft_back _ _ _ _ S Eh') as (d & Ed & _). congruence. }
  split; [|split; [|split; [|split; [|split]]]].
  - intros [_ N]. apply N. rewrite (fr_rf _ _ _ K). apply in_app_iff. right. left. reflexivity.
  - intros g Ng [R N]. split; [split|].
    + rewrite (fr_faces _ _ _ K). exact R.
    + rewrite (fr_rf _ _ _ K), in_app_iff. cbn. intros [Q|[Q|[]]]; congruence || tauto.
    + unfold get_vertices_around_face, get_halfedges_around_face. rewrite (fr_faces _ _ _ K). split; [reflexivity|].
      destruct (vget (faces m) g) as [hs|]; [|reflexivity]. cbn [obind]. clear - T. induction hs as [|h hs IH]; [reflexivity|]. cbn. rewrite T, IH. reflexivity.
  - intros v. apply (soft_lv _ _ _ S).
  - apply S.
  - intros h. rewrite (lh_live m h C), (lh_live m' h C'). apply (soft_lh _ _ _ S).
  - intros h Hh. apply (lh_live m h C) in Hh. destruct (lh_hget m h Hh) as [d Ed]. split; [|split; [apply T|]].
    + assert (Hh' : lh m' h) by (apply (soft_lh _ _ _ S); exact Hh). destruct (lh_hget m' h Hh') as [d' Ed'].
      destruct (source_target m h d C Hh Ed) as (od & Eo & S1 & _). destruct (source_target m' h d' C' Hh' Ed') as (od' & Eo' & S2 & _).
      destruct (s_he _ _ S _ _ Eo) as (x & Ex & Tx & _). rewrite S1, S2. congruence.
    + unfold face. rewrite Ed. cbn [obind]. split.
      * intros Q. injection Q as Q. destruct (fr_he' _ _ _ K h d Ed Q) as (d' & E' & Kf). rewrite E'. cbn. congruence.
      * intros Q. rewrite (fr_he _ _ _ K h d Ed); [reflexivity|]. congruence.
Qed.
Print Assumptions C12_remove_face_effect.

(** A concrete history: two triangles sharing an edge, one removed, an edge removed, its
    slots reused by another face. *)
Definition t4 : list op :=
  [OVertex (0,0,0); OVertex (1,0,0); OVertex (0,1,0); OVertex (1,1,0); OFace [0;1;2]; OFace [2;1;3]; ORemoveFace 1; ORemoveEdge 3; OFace [1;0;3]].
Fixpoint run (m : hmesh) (l : list op) : option hmesh :=
  match l with [] => Some m | o :: r => match exec m o with Some m' => run m' r | None => None end end.

Lemma run_history l : forall m m', history m -> run m l = Some m' ->
  (forall k m1 o, run m (firstn k l) = Some m1 -> nth_error l k = Some o -> allowed m1 o) -> history m'.
Proof.
  induction l as [|o l IH]; intros m m' H E A; cbn in E; [congruence|]. destruct (exec m o) as [m1|] eqn:E1; [|discriminate].
  apply (IH m1); [|exact E|].
  - eapply hist_op; [exact H| |exact E1]. apply (A 0%nat m o); reflexivity.
  - intros k m2 o2 Hk Ho. apply (A (S k) m2 o2); [cbn; rewrite E1; exact Hk|exact Ho].
Qed.

Definition live_b m v := (0 <=? v) && (v <? zlen (verts m)) && negb (zmem v (rv m)).
Lemma live_b_spec m v : live_b m v = true -> live_vertex m v.
Proof.
  unfold live_b. rewrite !andb_true_iff, negb_true_iff. intros [[A B] C]. apply zmem_notIn in C. split; [lia|exact C].
Qed.
(** decision procedure for [allowed] *)
Fixpoint nodup_b (l : list Z) : bool := match l with [] => true | a :: r => negb (zmem a r) && nodup_b r end.
Lemma nodup_b_spec l : nodup_b l = true -> NoDup l.
Proof. induction l as [|a r IH]; cbn; [constructor|]. rewrite andb_true_iff, negb_true_iff. intros [A B]. constructor; [apply zmem_notIn; exact A|auto]. Qed.
Definition allowed_b (m : hmesh) (o : op) : bool :=
  match o with
  | OVertex _ | OReset => true
  | OEdge a b => live_b m a && live_b m b && negb (a =? b)
  | OFace vi => (3 <=? length vi)%nat && nodup_b vi && forallb (live_b m) vi
  | ORemoveFace f => (0 <=? f) && (f <? zlen (faces m)) && negb (zmem f (rf m))
  | ORemoveEdge e => (0 <=? e) && (e <? zlen (edges m)) && negb (zmem e (re m)) &&
      match face m (e * 2 + 0), face m (e * 2 + 1) with Some a, Some b => (a =? null) && (b =? null) | _, _ => false end
  | ORemoveVertex v => live_b m v && match vget (verts m) v with Some (VD _ []) => true | _ => false end
  end.
Lemma allowed_b_spec m o : allowed_b m o = true -> allowed m o.
Proof.
  destruct o as [p|a b|vi|f|e|v|]; cbn; auto; rewrite ?andb_true_iff, ?negb_true_iff.
  - intros [[A B] C]. split; [apply live_b_spec; exact A|]. split; [apply live_b_spec; exact B|]. apply Z.eqb_neq. exact C.
  - intros [[A B] C]. split; [apply Nat.leb_le; exact A|]. split; [apply nodup_b_spec; exact B|]. rewrite forallb_forall in C. intros v Hv. apply live_b_spec, C, Hv.
  - intros [[A B] C]. apply zmem_notIn in C. split; [lia|exact C].
  - intros [[[A B] C] D]. apply zmem_notIn in C. split; [split; [lia|exact C]|]. unfold edge_halfedge. destruct (face m (e * 2 + 0)), (face m (e * 2 + 1)); try discriminate.
    apply andb_true_iff in D. destruct D as [D1 D2]. apply Z.eqb_eq in D1. apply Z.eqb_eq in D2. subst. auto.
  - intros [A B]. split; [apply live_b_spec; exact A|]. destruct (vget (verts m) v) as [[p l]|]; [|discriminate]. destruct l; [|discriminate]. eexists. split; reflexivity.
Qed.
Fixpoint run_ok (m : hmesh) (l : list op) : option hmesh :=
  match l with [] => Some m | o :: r => if allowed_b m o then match exec m o with Some m' => run_ok m' r | None => None end else None end.
Lemma run_ok_history l : forall m m', history m -> run_ok m l = Some m' -> history m'.
Proof.
  induction l as [|o l IH]; intros m m' H E; cbn in E; [congruence|]. destruct (allowed_b m o) eqn:A; [|discriminate]. destruct (exec m o) as [m1|] eqn:E1; [|discriminate].
  apply (IH m1); [|exact E]. eapply hist_op; [exact H|apply allowed_b_spec; exact A|exact E1].
Qed.

Example C12_instance : exists m, history m /\ number_of_faces m = 2 /\ number_of_edges m = 6 /\ zlen (re m) = 0.
Proof.
  destruct (run_ok hempty t4) as [m|] eqn:E; [|exfalso; revert E; vm_compute; discriminate].
  exists m. split; [exact (run_ok_history t4 hempty m hist_nil E)|]. revert E. vm_compute. intros E. injection E as <-. repeat split; reflexivity.
Qed.

(** C13.  If a face is accepted, it is a new live face, reading it gives the vertices of the
    call, in order (up to a cyclic shift by one), no other face appears, and everything that
    was there keeps its identity, points, end points and, for half-edges with a face,
    their face and neighbours. *)
Theorem C13_accepted_face_reads_back : forall m vi f m',
  history m -> (3 <= length vi)%nat -> NoDup vi -> (forall v, In v vi -> live_vertex m v) ->
  add_face m vi = Added f m' ->
  get_vertices_around_face m' f = Some (rotate1 vi) /\
  ~ live_face m f /\ live_face m' f /\ (forall g, live_face m' g -> g = f \/ live_face m g) /\
  preserves m m'.
Proof.
  intros m vi f m' H L3 Nd Lv E. pose proof (add_face_spec m vi (history_inv m H) L3 Nd Lv) as S. rewrite E in S. destruct S as [_ S].
  split; [apply S|]. split; [apply S|]. split; [apply S|]. split; apply S.
Qed.
Print Assumptions C13_accepted_face_reads_back.

(** C14.  The test for insertability says yes exactly when the insertion succeeds and no
    exactly when it is rejected. *)
Theorem C14_insertability_test_agrees : forall m vi,
  history m -> (3 <= length vi)%nat -> NoDup vi -> (forall v, In v vi -> live_vertex m v) ->
  (is_insertable m vi = Some true <-> exists f m', add_face m vi = Added f m') /\
  (is_insertable m vi = Some false <-> exists m', add_face m vi = Rejected m') /\
  (is_insertable m vi = Some true \/ is_insertable m vi = Some false).
Proof.
  intros m vi H L3 Nd Lv. pose proof (history_inv m H) as I. pose proof (add_face_spec m vi I L3 Nd Lv) as S.
  unfold is_insertable. rewrite insertable_free; [|apply I|].
  2:{ intros s t K. destruct (cyc_distinct vi s t Nd L3 K) as [Ns _]. apply cyc_In in K. split; [apply Lv, K|]. split; [apply Lv, K|exact Ns]. }
  fold (insertable m vi). destruct (add_face m vi) as [f m'|m'|]; [| |destruct S].
  - destruct S as [-> _]. split; [split; [eauto|auto]|]. split; [split; [discriminate|intros [x Q]; discriminate]|auto].
  - destruct S as [-> _]. split; [split; [discriminate|intros (x & y & Q); discriminate]|]. split; [split; [eauto|auto]|auto].
Qed.
Print Assumptions C14_insertability_test_agrees.

Definition tri_ops : list op := [OVertex (0,0,0); OVertex (1,0,0); OVertex (0,1,0); OVertex (1,1,0); OFace [0;1;2]].
Definition tri_mesh : hmesh := match run_ok hempty tri_ops with Some m => m | None => hempty end.
Lemma tri_history : history tri_mesh.
Proof. apply (run_ok_history tri_ops hempty). - apply hist_nil. - vm_compute. reflexivity. Qed.

Example C13_instance : exists m', add_face tri_mesh [2;1;3] = Added 1 m' /\ get_vertices_around_face m' 1 = Some [1;3;2].
Proof. destruct (add_face tri_mesh [2;1;3]) as [f m'|m'|] eqn:E; vm_compute in E; try discriminate. injection E as <- <-. eexists. split; [reflexivity|vm_compute; reflexivity]. Qed.
Example C14_instance : is_insertable tri_mesh [2;1;3] = Some true /\ is_insertable tri_mesh [1;2;3] = Some false.
Proof. split; vm_compute; reflexivity. Qed.

(** C15 is false.  A rejected face can leave a new edge behind; the half-edges visited before
    the rejection then claim to belong to a face that does not exist, so that the
    insertion of another, insertable face is an out-of-range access. *)
Theorem C15_rejected_face_changes_mesh_refuted :
  exists m vi m' vi2, history m /\ allowed m (OFace vi) /\ add_face m vi = Rejected m' /\
    number_of_edges m' <> number_of_edges m /\
    (exists h f, live_halfedge m' h /\ face m' h = Some f /\ f <> null /\ ~ live_face m' f) /\
    is_insertable m vi2 = Some true /\ is_insertable m' vi2 = Some false /\ add_face m' vi2 = AddUB.
Proof.
  exists tri_mesh, [3;0;1]. destruct (add_face tri_mesh [3;0;1]) as [f m'|m'|] eqn:E; vm_compute in E; try discriminate. injection E as <-.
  eexists. exists [3;0;2]. split; [apply tri_history|]. split; [apply allowed_b_spec; vm_compute; reflexivity|]. split; [reflexivity|].
  split; [vm_compute; discriminate|]. split; [|split; [vm_compute; reflexivity|]; split; vm_compute; reflexivity].
  exists 6, 1. split; [split; [vm_compute; split; [discriminate|reflexivity]|vm_compute; tauto]|]. split; [vm_compute; reflexivity|]. split; [vm_compute; discriminate|].
  intros [[_ K] _]. vm_compute in K. discriminate.
Qed.
Print Assumptions C15_rejected_face_changes_mesh_refuted.

Definition leak_ops : list op := tri_ops ++ [OFace [2;1;3]; ORemoveFace 1].
Definition leak_mesh : hmesh := match run_ok hempty leak_ops with Some m => m | None => hempty end.
Lemma leak_history : history leak_mesh.
Proof. apply (run_ok_history leak_ops hempty). - apply hist_nil. - vm_compute. reflexivity. Qed.

(** C15 is false also in another way: when the slot of a removed face would have been
    reused, the rejected face takes the slot off the free list, so the number of faces grows by
    one although no face was added, and iteration visits the slot. *)
Theorem C15_rejected_face_leaks_slot_refuted :
  exists m vi m', history m /\ allowed m (OFace vi) /\ add_face m vi = Rejected m' /\
    number_of_faces m' = number_of_faces m + 1 /\
    iterate (zlen (faces m)) (rf m) = Some [0] /\ iterate (zlen (faces m')) (rf m') = Some [0; 1].
Proof.
  exists leak_mesh, [3;0;1]. destruct (add_face leak_mesh [3;0;1]) as [f m'|m'|] eqn:E; vm_compute in E; try discriminate. injection E as <-.
  eexists. split; [apply leak_history|]. split; [apply allowed_b_spec; vm_compute; reflexivity|]. split; [reflexivity|].
  split; [vm_compute; reflexivity|]. split; vm_compute; reflexivity.
Qed.
Print Assumptions C15_rejected_face_leaks_slot_refuted.

(** C15, the part that holds: nothing that was visible before is lost or altered; the
    vertices are the same. *)
Theorem C15_rejected_face_preserves_old_partial : forall m vi m',
  history m -> (3 <= length vi)%nat -> NoDup vi -> (forall v, In v vi -> live_vertex m v) ->
  add_face m vi = Rejected m' ->
  preserves m m' /\ number_of_vertices m' = number_of_vertices m.
Proof.
  intros m vi m' H L3 Nd Lv E. pose proof (history_inv m H) as I. pose proof (add_face_spec m vi I L3 Nd Lv) as S. rewrite E in S.
  destruct S as (_ & C' & G & Fs). destruct I as [C F].
  pose proof (g_vlen _ _ G) as V1. pose proof (g_rv _ _ G) as V2. cbn in V1, V2.
  assert (Hh : forall h d, lh m h -> hget m h = Some d -> lh m' h /\ exists d', hget m' h = Some d' /\
          ht d' = ht d /\ ho d' = ho d /\ hn d' = hn d /\ hp d' = hp d /\ he d' = he d /\ (hf d <> null -> hf d' = hf d)) by exact (g_h _ _ G).
  assert (T : forall h, lh m h -> target m' h = target m h).
  { intros h L. destruct (lh_hget m h L) as [d Ed]. destruct (Hh h d L Ed) as (_ & d' & E' & T & _). rewrite (target_ht _ _ _ Ed), (target_ht _ _ _ E'). congruence. }
  split; [|unfold number_of_vertices; rewrite V1, V2; reflexivity]. split; [|split].
  - intros v [R N]. split; [unfold live_vertex; rewrite V1, V2; split; assumption|]. destruct (vget_range_Some _ _ R) as [d Ed].
    destruct (g_v _ _ G v d Ed) as (d' & E' & P). cbn in E'. rewrite Ed, E'. cbn. congruence.
  - intros f [R N]. destruct (vget_range_Some _ _ R) as [hs Ef]. destruct (Fs f hs N Ef) as [N' Ef']. split; [split; [exact (vget_Some_range _ _ _ Ef')|exact N']|].
    unfold get_vertices_around_face, get_halfedges_around_face. rewrite Ef, Ef'. split; [reflexivity|]. cbn [obind].
    assert (Nf : f <> null) by (unfold null; lia). destruct (f_face _ _ _ F f hs Nf N Ef) as (_ & _ & G3 & _).
    assert (Z : forall l, (forall h, In h l -> lh m h) -> omap (target m') l = omap (target m) l).
    { induction l as [|h l IHl]; intros Q; [reflexivity|]. cbn. rewrite (T h (Q h (or_introl eq_refl))). rewrite IHl; [reflexivity|]. intros y Hy. apply Q. right. exact Hy. }
    apply Z. intros h Hl. apply G3. exact Hl.
  - intros h L. apply (lh_live m h C) in L. destruct (lh_hget m h L) as [d Ed]. destruct (Hh h d L Ed) as (L' & d' & E' & T1 & O1 & N1 & P1 & X1 & F1).
    split; [apply (lh_live m' h C'); exact L'|]. split; [|split; [apply T; exact L|]].
    + destruct (source_target m h d C L Ed) as (od & Eo & S1 & _). destruct (source_target m' h d' C' L' E') as (od' & Eo' & S2 & _).
      destruct (Hh _ od (lh_opposite m h C L) Eo) as (_ & x & Ex & Tx & _). rewrite S1, S2. congruence.
    + intros f Ef Nf. unfold face in Ef. rewrite Ed in Ef. cbn in Ef. injection Ef as Ef. unfold face, next, prev. rewrite E', Ed. cbn. rewrite F1 by congruence. rewrite N1, P1, Ef. auto.
Qed.
Print Assumptions C15_rejected_face_preserves_old_partial.

(** A vertex list that names a half-edge twice (not allowed by the API, but not excluded by
    its type) is not rejected: the diagnostic print of the rejection reads the vertices
    of the new face, which does not exist yet. *)
Theorem C15_repeated_halfedge_refuted : exists m vi, history m /\ (forall v, In v vi -> live_vertex m v) /\ (3 <= length vi)%nat /\ add_face m vi = AddUB.
Proof.
  exists tri_mesh, [0;3;0;3]. split; [apply tri_history|]. split; [|split; [cbn; lia|vm_compute; reflexivity]].
  intros v Hv. apply live_b_spec. cbn in Hv. destruct Hv as [<-|[<-|[<-|[<-|[]]]]]; vm_compute; reflexivity.
Qed.
Print Assumptions C15_repeated_halfedge_refuted.

(** C16.  Iterating over the vertices, edges, half-edges or faces visits exactly the live
    elements, each once, in increasing order of descriptor, and as many as the
    corresponding count says. *)
Theorem C16_iteration_and_counts_agree : forall m, history m ->
  (exists l, iterate (zlen (verts m)) (rv m) = Some l /\ l = live_slots (zlen (verts m)) (rv m) /\
     (forall v, In v l <-> live_vertex m v) /\ NoDup l /\ zlen l = number_of_vertices m) /\
  (exists l, iterate (zlen (edges m)) (re m) = Some l /\ l = live_slots (zlen (edges m)) (re m) /\
     (forall v, In v l <-> live_edge m v) /\ NoDup l /\ zlen l = number_of_edges m) /\
  (exists l, iterate (zlen (hes m)) (rh m) = Some l /\ l = live_slots (zlen (hes m)) (rh m) /\
     (forall v, In v l <-> live_halfedge m v) /\ NoDup l /\ zlen l = number_of_halfedges m) /\
  (exists l, iterate (zlen (faces m)) (rf m) = Some l /\ l = live_slots (zlen (faces m)) (rf m) /\
     (forall v, In v l <-> live_face m v) /\ NoDup l /\ zlen l = number_of_faces m) /\
  number_of_halfedges m = 2 * number_of_edges m.
Proof.
  intros m H. destruct (history_inv m H) as [C F].
  assert (X : forall len removed, 0 <= len -> NoDup removed -> (forall x, In x removed -> 0 <= x < len) ->
    exists l, iterate len removed = Some l /\ l = live_slots len removed /\ (forall v, In v l <-> 0 <= v < len /\ ~ In v removed) /\ NoDup l /\ zlen l = len - zlen removed).
  { intros len removed L N R. exists (live_slots len removed). split; [apply iterate_spec; exact L|]. split; [reflexivity|]. split; [|split; [apply NoDup_filter, NoDup_zrange|apply count_spec; assumption]].
    intros v. unfold live_slots. rewrite filter_In, In_zrange. fold (live removed v). rewrite live_In. tauto. }
  assert (Np : NoDup (pairs (re m))).
  { pose proof (c_re m C) as Nr. clear - Nr. induction Nr as [|e l He Nl IH]; [constructor|]. cbn [pairs flat_map app].
    constructor; [|constructor; [|exact IH]].
    - intros [K|K]; [clear - K; lia|]. apply In_pairs in K. rewrite div_even in K. contradiction.
    - intros K. apply In_pairs in K. rewrite div_odd in K. contradiction. }
  assert (Lp : zlen (pairs (re m)) = 2 * zlen (re m)).
  { unfold pairs, zlen. clear. induction (re m) as [|e l IH]; [reflexivity|]. cbn [flat_map app length]. lia. }
  pose proof (c_len m C) as CL.
  split; [|split; [|split; [|split]]].
  - apply X; [apply zlen_nonneg|apply C|apply C].
  - apply X; [apply zlen_nonneg|apply C|apply C].
  - apply X; [apply zlen_nonneg|rewrite (c_rh m C); exact Np|]. intros x K. rewrite (c_rh m C) in K. apply In_pairs in K. apply (c_re' m C) in K. lia.
  - apply X; [apply zlen_nonneg|apply F|apply F].
  - unfold number_of_halfedges, number_of_edges. rewrite (c_rh m C), Lp, CL. lia.
Qed.
Print Assumptions C16_iteration_and_counts_agree.

Example C16_instance : iterate 6 [1; 4; 5] = Some [0; 2; 3].
Proof. reflexivity. Qed.

(** C49.  For edges (whose distance is specialised) a parallel loop over a range with removed
    slots hands out blocks whose loops all end and together visit each live edge once, in
    order. *)
Theorem C49_parallel_edge_loop_visits_live_edges_partial : forall m pool mn, history m ->
  0 < number_of_edges m -> 0 <= pool < 2 ^ 32 - 1 -> 1 <= mn -> zlen (edges m) + mn - 1 < 2 ^ 32 ->
  exists workers master parts,
    mesh_parallel_for_plan edge_distance pool (zlen (edges m)) (re m) mn = PlanOk workers master /\
    zlen workers <= pool /\
    omap (mesh_block_elements (zlen (edges m)) (re m)) (workers ++ [master]) = Some parts /\
    concat parts = live_slots (zlen (edges m)) (re m).
Proof.
  intros m pool mn H Ne Hp Hm Hw. destruct (history_inv m H) as [C F]. apply edge_loop_spec; [apply C|apply C| |exact Hp|exact Hm|apply zlen_nonneg|exact Hw].
  intros K. pose proof (count_spec (zlen (edges m)) (re m) (zlen_nonneg _) (c_re m C) (c_re' m C)) as Q. rewrite K in Q. unfold number_of_edges in Ne. unfold zlen at 1 in Q. cbn in Q. lia.
Qed.
Print Assumptions C49_parallel_edge_loop_visits_live_edges_partial.

(** C49 is false for faces, vertices and half-edges (no specialised distance): with the
    removed slots in one place, default grain and three workers, a block starts behind the end of
    the array, so the loop of the calling thread does not end. *)
Theorem C49_parallel_face_loop_refuted :
  exists len removed workers master,
    NoDup removed /\ (forall x, In x removed -> 0 <= x < len) /\
    mesh_parallel_for_plan raw_distance 3 len removed 1024 = PlanOk workers master /\
    blast master < bfirst master /\
    forall fuel, it_loop fuel len removed (bfirst master) (blast master) = None.
Proof.
  set (len := 4096). set (removed := zspan 1024 2050).
  destruct (mesh_parallel_for_plan raw_distance 3 len removed 1024) as [| |w ms] eqn:E; [exfalso; revert E; vm_compute; discriminate|exfalso; revert E; vm_compute; discriminate|].
  exists len, removed, w, ms. split; [unfold removed, zspan; apply FinFun.Injective_map_NoDup; [intros x y; lia|apply seq_NoDup]|].
  split; [intros x K; apply In_zspan in K; unfold len; lia|]. split; [exact E|].
  assert (K : ms = Blk 4098 4096).
  { assert (X : match mesh_parallel_for_plan raw_distance 3 len removed 1024 with PlanOk _ m => m = Blk 4098 4096 | _ => False end) by (vm_compute; reflexivity).
    rewrite E in X. exact X. }
  subst ms. cbn [bfirst blast]. split; [lia|].
  assert (Q : forall fuel i, 4096 < i -> it_loop fuel len removed i 4096 = None).
  { induction fuel as [|fuel IH]; intros i Hi; cbn [it_loop]; destruct (Z.eqb_spec i 4096); try lia; [reflexivity|].
    rewrite IH; [reflexivity|]. unfold it_next. generalize (Z.to_nat len). intros k. destruct k as [|k]; cbn; [lia|]. destruct (Z.ltb_spec (i + 1) len); [unfold len in *; lia|]. cbn. lia. }
  intros fuel. apply Q. lia.
Qed.
Print Assumptions C49_parallel_face_loop_refuted.
