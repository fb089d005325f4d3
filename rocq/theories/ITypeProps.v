(** Closedness of the input meshes (C51) and the intersection type (C52). *)
From Coq Require Import List ZArith Bool Lia.
From Verif Require Import Vec VecLemmas HmeshModel HmeshSpec HmeshCore HmeshIter HmeshProps InputModel InputSpec InputProofs
  DispatchModel DispatchSpec DispatchProofs DispatchFilter DispatchEnd DispatchProps ITypeModel.
Import ListNotations.
Open Scope Z_scope.

(** ** C51 *)
(** Every edge of every face is, in the other direction, an edge of some face. *)
Definition closed_surface (fs : list (list Z)) : Prop :=
  forall f s t, In f fs -> In (s, t) (directed_edges f) -> exists g, In g fs /\ In (t, s) (directed_edges g).

Lemma In_edges fs s t : In (s, t) (all_edges fs) <-> exists f, In f fs /\ In (s, t) (directed_edges f).
Proof.
  unfold all_edges. rewrite in_concat. split.
  - intros (x & Hx & H). apply in_map_iff in Hx. destruct Hx as (f & <- & Hf). eauto.
  - intros (f & Hf & H). exists (directed_edges f). split; [apply in_map; exact Hf|exact H].
Qed.

Lemma closed_loop_spec m l :
  (forall h, In h l -> exists f, face m h = Some f) ->
  exists b, closed_loop m l = Some b /\ (b = true <-> forall h, In h l -> face m h <> Some null).
Proof.
  induction l as [|h l IH]; intros H.
  - exists true. split; [reflexivity|]. split; [intros _ h []|reflexivity].
  - destruct (H h (or_introl eq_refl)) as (f & Ef). cbn [closed_loop]. rewrite Ef. cbn [obind].
    destruct (Z.eqb_spec f null) as [->|N].
    + exists false. split; [reflexivity|]. split; [discriminate|]. intros X. exfalso. apply (X h (or_introl eq_refl)). exact Ef.
    + destruct IH as (b & E & B); [intros; apply H; right; assumption|]. exists b. split; [exact E|]. rewrite B. split.
      * intros X h' [<-|K]; [rewrite Ef; congruence|auto].
      * intros X h' K. apply X. right. exact K.
Qed.

Lemma mesh_is_closed_spec m : history m ->
  exists b, mesh_is_closed m = Some b /\ (b = true <-> forall h, live_halfedge m h -> face m h <> Some null).
Proof.
  intros H. unfold mesh_is_closed. rewrite iterate_spec by apply zlen_nonneg. cbn [obind].
  assert (L : forall h, In h (live_slots (zlen (hes m)) (rh m)) <-> live_halfedge m h).
  { intros h. unfold live_slots, live_halfedge. rewrite filter_In, In_zrange. destruct (in_dec Z.eq_dec h (rh m)); intuition (try discriminate). }
  destruct (closed_loop_spec m (live_slots (zlen (hes m)) (rh m))) as (b & E & B).
  - intros h K. apply L in K. unfold face, hget. destruct (vget_range_Some (hes m) h (proj1 K)) as (d & ->). cbn. eauto.
  - exists b. split; [exact E|]. rewrite B. split; intros X h K; apply X, L; exact K.
Qed.

Lemma built_closed coords fs m : built coords fs m ->
  exists b, mesh_is_closed m = Some b /\ (b = true <-> closed_surface fs).
Proof.
  intros B. pose proof (b_hist _ _ _ B) as H. destruct (mesh_is_closed_spec m H) as (b & E & X). exists b. split; [exact E|].
  rewrite X. clear X E b. pose proof (HInv_consistent m (history_inv m H)) as C. split.
  - intros A f s t Hf He.
    assert (K : In (s, t) (all_edges fs)) by (apply In_edges; eauto).
    apply (built_taken _ _ _ _ _ B) in K. destruct K as (h & g & L & Hs & Ht & Fh & Nf).
    destruct (k_opposite m C h L) as (Lo & _). destruct (k_ends m C h L) as (a & c & Sa & Tc & _ & _ & _ & So & To).
    pose proof (A _ Lo) as Fo. unfold face in Fo. destruct (hget m (opposite h)) as [d|] eqn:Ed.
    + assert (K : In (t, s) (all_edges fs)).
      { apply (built_taken _ _ _ _ _ B). exists (opposite h), (hf d). split; [exact Lo|]. split; [congruence|]. split; [congruence|].
        unfold face. rewrite Ed. cbn in *. split; [reflexivity|]. congruence. }
      apply In_edges in K. exact K.
    + unfold hget in Ed. destruct (vget_range_Some (hes m) _ (proj1 Lo)) as (d & Ed'). congruence.
  - intros A h L Fh. destruct (k_ends m C h L) as (s & t & Hs & Ht & _).
    assert (K : In (s, t) (all_edges fs)).
    { destruct (mr_edges _ _ _ (built_mirrors _ _ _ B) s t h L Hs Ht) as [K | K]; [exact K|].
      apply In_edges in K. destruct K as (f & Hf & He). apply In_edges. destruct (A f t s Hf He) as (g & G). eauto. }
    apply (built_taken _ _ _ _ _ B) in K. destruct K as (h' & g & L' & Hs' & Ht' & Fh' & Nf).
    assert (h = h') by (apply (b_simple _ _ _ B s t); apply live_arc; auto; apply history_inv, H).
    subst h'. congruence.
Qed.

(** A mesh accepted from the user's arrays is called watertight iff every edge of a face is shared with
    a neighbour. *)
Theorem C51_closed_iff_every_edge_shared : forall coords sizes idx fs m,
  describes sizes idx fs -> (forall x, In x (concat fs) -> 0 <= x) -> zlen (concat fs) < 2 ^ 31 ->
  seq_convert coords sizes idx (zlen fs) = CAccept m ->
  exists b, mesh_is_closed m = Some b /\ (b = true <-> closed_surface fs).
Proof.
  intros coords sizes idx fs m D Hr Hl E. destruct (seq_convert_spec coords sizes idx fs D Hr Hl) as (m0 & _ & B & R1 & R2).
  rewrite E in *. destruct (all_good_dec (zlen coords) fs Hr) as [G|Bd]; [|discriminate (R2 Bd)].
  assert (N0 : NoDup (all_edges [])) by constructor.
  pose proof (insert_all_spec coords fs [] m0 B N0 G) as S. rewrite <- (R1 G) in S. destruct S as [_ S].
  exact (built_closed coords fs m S).
Qed.
Print Assumptions C51_closed_iff_every_edge_shared.

Definition tet : list (list Z) := [[0; 2; 1]; [0; 1; 3]; [1; 2; 3]; [2; 0; 3]].
Definition pts4 : list point := [(0,0,0); (1,0,0); (0,1,0); (0,0,1)].
Example closed_tet : match seq_convert pts4 None (concat tet) 4 with CAccept m => mesh_is_closed m = Some true | _ => False end.
Proof. vm_compute. reflexivity. Qed.
Example open_tet : match seq_convert pts4 None (concat (tl tet)) 3 with CAccept m => mesh_is_closed m = Some false | _ => False end.
Proof. vm_compute. reflexivity. Qed.

(** ** C52 *)
(** What the type should be when the surfaces do not intersect: [inside a b] holds if mesh [a] lies in
    the volume bounded by the closed mesh [b]. *)
Definition enclosure (sm_closed cm_closed : bool) (inside : which -> which -> bool) (t : itype) : Prop :=
  (t = InsideSourceMesh <-> sm_closed = true /\ inside Cut Src = true) /\
  (t = InsideCutMesh <-> cm_closed = true /\ inside Src Cut = true) /\ t <> Standard.

(** Hypotheses on the geometry: a mesh is not inside itself, lying inside implies overlapping boxes and
    a smaller box, and the boxes of the code tell the size. *)
Theorem C52_enclosure sm_closed cm_closed boxes_meet larger inside :
  (forall a, inside a a = false) ->
  (boxes_meet = false -> forall a b, inside a b = false) ->
  (inside Cut Src = true -> larger = true) -> (inside Src Cut = true -> larger = false) ->
  enclosure sm_closed cm_closed inside (check_type sm_closed cm_closed boxes_meet larger inside).
Proof.
  intros SE BM L1 L2. unfold enclosure, check_type.
  pose proof (SE Src) as S1. pose proof (SE Cut) as S2.
  destruct boxes_meet; [clear BM|pose proof (BM eq_refl Cut Src) as B1; pose proof (BM eq_refl Src Cut) as B2];
  destruct sm_closed, cm_closed, larger, (inside Cut Src), (inside Src Cut); rewrite ?S1, ?S2; cbn [negb andb orb];
    try discriminate B1; try discriminate B2; try specialize (L1 eq_refl); try specialize (L2 eq_refl); try discriminate;
    repeat split; intros; try discriminate; intuition (try discriminate).
Qed.
Print Assumptions C52_enclosure.

(** With both kinds of filters (none) a run is "standard" exactly if the kernel found an intersection and
    something came out of it; with filters that drop everything, an intersecting configuration is
    classified as if the surfaces did not meet. *)
Theorem C52_standard_partial e fuel p cs s c :
  dispatch_run fuel e = (Some (Completed p cs), s) -> bit (e_flags e) 17 = true -> any_filter (e_flags e) = false ->
  c <> Standard ->
  (stored_type (e_flags e) (Completed p cs) c = Some Standard <->
   exists f, d_facts s = Some f /\ exists x, In x (delivered 0 f) /\ x <> InputSrc /\ x <> InputCut).
Proof.
  intros R B N NC. apply completed_inv in R. destruct R as (_ & _ & _ & ->). unfold stored_type.
  rewrite has_flag_bit by lia. rewrite B. cbn [negb].
  assert (ST : forall o, is_standard (rev (created o)) = true <-> exists x, In x (rev (created o)) /\ x <> InputSrc /\ x <> InputCut).
  { intros o. unfold is_standard, created. rewrite !app_assoc, rev_app_distr. cbn [rev app].
    match goal with |- context [InputSrc :: InputCut :: rev ?x] => set (l' := x) end.
    assert (NI : forall a, In a l' -> a <> InputSrc /\ a <> InputCut).
    { intros a I. subst l'.
      repeat (apply in_app_or in I; destruct I as [I | I]); try (apply in_map_iff in I; destruct I as (? & <- & _); split; discriminate);
      (match type of I with In _ (if ?b then _ else _) => destruct b end; [destruct I as [<- | []]; split; discriminate|destruct I]). }
    clearbody l'. assert (ZL : zlen (InputSrc :: InputCut :: rev l') = 2 + zlen l') by (unfold zlen; cbn [length]; rewrite rev_length; lia).
    rewrite ZL, Z.ltb_lt. split.
    - intros H. destruct l' as [|a r]; [cbn in H; lia|]. exists a. split; [right; right; rewrite <- in_rev; left; reflexivity|].
      apply NI. left. reflexivity.
    - intros (x & [<- | [<- | I]] & A & C); try congruence. apply in_rev in I. destruct l'; [destruct I|unfold zlen; cbn [length]; lia]. }
  destruct (d_facts s) as [f|].
  - rewrite (delivered_none _ f N). unfold delivered. specialize (ST (kernel_stages (keep_of_flags 0) f)).
    destruct (is_standard _) eqn:E; split; intros X.
    + exists f. split; [reflexivity|]. apply ST. reflexivity.
    + reflexivity.
    + congruence.
    + destruct X as (f' & Ef & X). injection Ef as <-. apply ST in X. discriminate.
  - cbn. split; [intros X; congruence|]. intros (f & X & _). discriminate.
Qed.
Print Assumptions C52_standard_partial.

Theorem C52_filters_hide_intersection_refuted :
  exists e fuel p cs s f, dispatch_run fuel e = (Some (Completed p cs), s) /\ bit (e_flags e) 17 = true /\
    d_facts s = Some f /\ (exists x, In x (delivered 0 f) /\ x <> InputSrc /\ x <> InputCut) /\
    stored_type (e_flags e) (Completed p cs) NoneType = Some NoneType.
Proof.
  set (fa := Facts [(1, Above); (2, Below)] (fun _ => []) (fun _ => Outside) (fun _ => []) true true false).
  exists (ex_env (2 ^ 17 + 2 ^ 11) 0 (fun _ _ => Found fa)), 5%nat.
  do 3 eexists. exists fa. split; [vm_compute; reflexivity|]. split; [reflexivity|]. split; [reflexivity|]. split.
  - exists SeamSrc. split; [vm_compute; auto 10|split; discriminate].
  - vm_compute. reflexivity.
Qed.
Print Assumptions C52_filters_hide_intersection_refuted.
Example enclosure_case : check_type true true true true (fun a b => match a, b with Cut, Src => true | _, _ => false end) = InsideSourceMesh.
Proof. reflexivity. Qed.
