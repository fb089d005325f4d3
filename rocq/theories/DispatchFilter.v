(** Filters: lemmas for C21. *)
From Coq Require Import List ZArith Bool Lia.
From Verif Require Import Vec BvhModel DispatchModel DispatchSpec.
Import ListNotations.
Open Scope Z_scope.

Lemma has_flag_bit flags k : 0 <= k -> has_flag flags (2 ^ k) = bit flags k.
Proof.
  intros Hk. unfold has_flag, bit.
  destruct (Z.testbit flags k) eqn:E.
  - apply negb_true_iff, Z.eqb_neq. intros H.
    assert (X : Z.testbit (Z.land flags (2 ^ k)) k = true).
    { rewrite Z.land_spec, E, Z.pow2_bits_true by exact Hk. reflexivity. }
    rewrite H, Z.bits_0 in X. discriminate.
  - apply negb_false_iff, Z.eqb_eq. apply Z.bits_inj'. intros n Hn.
    rewrite Z.land_spec, Z.bits_0. destruct (Z.eq_dec n k) as [->|N].
    + rewrite E. reflexivity.
    + rewrite Z.pow2_bits_false by lia. apply andb_false_r.
Qed.

Lemma has_flag_lor flags a b : has_flag flags (Z.lor a b) = has_flag flags a || has_flag flags b.
Proof.
  unfold has_flag. rewrite Z.land_lor_distr_r.
  destruct (Z.eqb_spec (Z.land flags a) 0) as [A|A]; destruct (Z.eqb_spec (Z.land flags b) 0) as [B|B]; cbn.
  - rewrite A, B. reflexivity.
  - rewrite A, Z.lor_0_l. apply negb_true_iff, Z.eqb_neq. exact B.
  - rewrite B, Z.lor_0_r. apply negb_true_iff, Z.eqb_neq. exact A.
  - apply negb_true_iff, Z.eqb_neq. intros H. apply Z.lor_eq_0_iff in H. tauto.
Qed.

Lemma has_filter flags : has_flag flags filter_bits = any_filter flags.
Proof.
  unfold filter_bits, any_filter. rewrite !has_flag_lor.
  unfold FRAGMENT_LOCATION_ABOVE, FRAGMENT_LOCATION_BELOW, FRAGMENT_LOCATION_UNDEFINED, FRAGMENT_SEALING_INSIDE,
    FRAGMENT_SEALING_OUTSIDE, FRAGMENT_SEALING_NONE, PATCH_INSIDE, PATCH_OUTSIDE, SEAM_SRCMESH, SEAM_CUTMESH.
  rewrite !has_flag_bit by lia. cbn [existsb]. rewrite orb_false_r. reflexivity.
Qed.

Definition all_keep := Keep true true true true true true true true true true.

Lemma keep_spec flags :
  keep_of_flags flags =
  if any_filter flags then
    Keep (bit flags 6) (bit flags 5) (bit flags 7) (bit flags 10) (bit flags 9) (bit flags 8)
         (bit flags 11) (bit flags 12) (bit flags 13) (bit flags 14)
  else all_keep.
Proof.
  unfold keep_of_flags. rewrite has_filter.
  unfold FRAGMENT_LOCATION_ABOVE, FRAGMENT_LOCATION_BELOW, FRAGMENT_LOCATION_UNDEFINED, FRAGMENT_SEALING_INSIDE,
    FRAGMENT_SEALING_OUTSIDE, FRAGMENT_SEALING_NONE, PATCH_INSIDE, PATCH_OUTSIDE, SEAM_SRCMESH, SEAM_CUTMESH.
  rewrite !has_flag_bit by lia. reflexivity.
Qed.

(** the same selection, by keep flags *)
Definition kept (k : keep) (c : comp) : bool :=
  match c with
  | Sealed _ l Inside => keep_loc k l && k_sealed_in k
  | Sealed _ l Outside => keep_loc k l && k_sealed_out k
  | Unsealed _ l => keep_loc k l && k_unsealed k
  | Patch _ Inside => k_patch_in k
  | Patch _ Outside => k_patch_out k
  | SeamSrc => k_seam_src k
  | SeamCut => k_seam_cut k
  | InputCut | InputSrc => true
  end.

Lemma keep_loc_flags flags l : any_filter flags = true -> keep_loc (keep_of_flags flags) l = bit flags (location_bit l).
Proof.
  intros A. rewrite keep_spec, A. unfold keep_loc. cbn [k_above k_below k_partial].
  destruct l; cbn [floc_eqb location_bit]; rewrite ?andb_true_r, ?andb_false_r, ?orb_false_r; reflexivity.
Qed.

Lemma kept_wanted flags c : kept (keep_of_flags flags) c = wanted flags c.
Proof.
  unfold wanted. destruct (any_filter flags) eqn:A; cbn [negb orb].
  - destruct c as [i l p|i l|i p| | | | ]; cbn [kept named]; rewrite ?keep_loc_flags by exact A;
      try reflexivity; rewrite ?keep_spec, ?A; try reflexivity; destruct p;
      rewrite ?keep_loc_flags by exact A; rewrite ?keep_spec, ?A; reflexivity.
  - rewrite keep_spec, A. destruct c as [i l p|i l|i p| | | | ]; try reflexivity;
      try destruct l; try destruct p; reflexivity.
Qed.

(** ** filtering the stages *)
Lemma filter_filter {A} (p q : A -> bool) l : filter p (filter q l) = filter (fun x => q x && p x) l.
Proof.
  induction l as [|a l IH]; [reflexivity|]. cbn. destruct (q a) eqn:Q; cbn; [destruct (p a)|]; rewrite ?IH; reflexivity.
Qed.

Lemma filter_map {A B} (p : B -> bool) (f : A -> B) l : filter p (map f l) = map f (filter (fun x => p (f x)) l).
Proof. induction l as [|a l IH]; [reflexivity|]. cbn. destruct (p (f a)); cbn; rewrite IH; reflexivity. Qed.

Lemma filter_flat_map {A B} (p : B -> bool) (f : A -> list B) l :
  filter p (flat_map f l) = flat_map (fun x => filter p (f x)) l.
Proof. induction l as [|a l IH]; [reflexivity|]. cbn. rewrite filter_app, IH. reflexivity. Qed.

Lemma flat_map_ext' {A B} (f g : A -> list B) l : (forall x, f x = g x) -> flat_map f l = flat_map g l.
Proof. intros H. induction l as [|a l IH]; [reflexivity|]. cbn. rewrite H, IH. reflexivity. Qed.

Lemma flat_map_nil {A B} (f : A -> list B) l : (forall x, f x = []) -> flat_map f l = [].
Proof. intros H. induction l as [|a l IH]; [reflexivity|]. cbn. rewrite H, IH. reflexivity. Qed.

Lemma filter_ext' {A} (p q : A -> bool) l : (forall x, p x = q x) -> filter p l = filter q l.
Proof. intros H. apply filter_ext. exact H. Qed.

Lemma filter_none {A} (p : A -> bool) l : (forall x, p x = false) -> filter p l = [].
Proof. intros H. induction l as [|a l IH]; [reflexivity|]. cbn. rewrite H. exact IH. Qed.

Lemma filter_true' {A} (p : A -> bool) l : (forall x, p x = true) -> filter p l = l.
Proof. intros H. induction l as [|a l IH]; [reflexivity|]. cbn. rewrite H, IH. reflexivity. Qed.

Lemma by_loc_filter {A} (loc : A -> floc) p l : by_loc loc (filter p l) = filter p (by_loc loc l).
Proof.
  unfold by_loc. rewrite filter_flat_map. apply flat_map_ext'. intros x. rewrite !filter_filter.
  apply filter_ext'. intros a. apply andb_comm.
Qed.
Lemma by_ploc_filter {A} (loc : A -> ploc) p l : by_ploc loc (filter p l) = filter p (by_ploc loc l).
Proof.
  unfold by_ploc. rewrite filter_flat_map. apply flat_map_ext'. intros x. rewrite !filter_filter.
  apply filter_ext'. intros a. apply andb_comm.
Qed.

Lemma keep_loc_all l : keep_loc all_keep l = true.
Proof. destruct l; reflexivity. Qed.

Lemma keep_loc_false k l : k_below k = false -> k_above k = false -> k_partial k = false -> keep_loc k l = false.
Proof. intros A B C. unfold keep_loc. rewrite A, B, C. reflexivity. Qed.

Lemma unsealed_stage_spec k f :
  k_unsealed k || k_partial k = k_unsealed k ->
  unsealed_stage k f = filter (fun a => kept k (Unsealed (fst a) (snd a))) (unsealed_stage all_keep f).
Proof.
  intros H. unfold unsealed_stage. cbn [all_keep k_unsealed k_partial orb].
  rewrite <- !by_loc_filter, filter_filter. rewrite H. destruct (k_unsealed k) eqn:U.
  - f_equal. apply filter_ext'. intros a. cbn [kept]. rewrite keep_loc_all, U, andb_true_r. reflexivity.
  - rewrite filter_none; [reflexivity|]. intros a. cbn [kept]. rewrite U, andb_false_r, andb_false_r. reflexivity.
Qed.

Lemma patch_stage_spec k f p :
  patch_stage k f p = filter (fun i => kept k (Patch i p)) (patch_stage all_keep f p).
Proof.
  unfold patch_stage. rewrite filter_flat_map. apply flat_map_ext'. intros c. cbn [all_keep k_patch_in k_patch_out negb].
  destruct (f_colour f c), p; cbn [ploc_eqb kept];
    try destruct (k_patch_in k); try destruct (k_patch_out k); cbn [negb];
    rewrite ?filter_none, ?filter_true' by reflexivity; reflexivity.
Qed.

Lemma sealed_stage_spec k f :
  sealed_stage k f = filter (fun a => kept k (Sealed (fst (fst a)) (snd (fst a)) (snd a))) (sealed_stage all_keep f).
Proof.
  unfold sealed_stage. rewrite filter_flat_map. apply flat_map_ext'. intros x.
  rewrite <- by_ploc_filter. f_equal.
  set (K := fun a : Z * floc * ploc => kept k (Sealed (fst (fst a)) (snd (fst a)) (snd a))).
  match goal with |- _ = filter _ (filter _ ?E) =>
    transitivity (filter (fun a => floc_eqb (snd (fst a)) x) (filter K E));
      [|rewrite !filter_filter; apply filter_ext'; intros; apply andb_comm] end.
  f_equal. subst K. change (k_sealed_in all_keep) with true. change (k_sealed_out all_keep) with true. cbn [orb].
  cbn [filter flat_map app].
  assert (P : forall c, filter (fun a => kept k (Sealed (fst (fst a)) (snd (fst a)) (snd a)))
                          (map (fun a => (a, f_colour f c)) (filter (fun a => keep_loc all_keep (snd a)) (f_stitched f c)))
                      = if match f_colour f c with Inside => k_sealed_in k | Outside => k_sealed_out k end
                        then map (fun a => (a, f_colour f c)) (filter (fun a => keep_loc k (snd a)) (f_stitched f c)) else []).
  { intros c. rewrite filter_map. rewrite filter_filter. cbn [fst snd kept].
    destruct (f_colour f c).
    - destruct (k_sealed_in k).
      + f_equal. apply filter_ext'. intros a. rewrite keep_loc_all, andb_true_r. reflexivity.
      + rewrite filter_none; [reflexivity|]. intros a. rewrite andb_false_r, andb_false_r. reflexivity.
    - destruct (k_sealed_out k).
      + f_equal. apply filter_ext'. intros a. rewrite keep_loc_all, andb_true_r. reflexivity.
      + rewrite filter_none; [reflexivity|]. intros a. rewrite andb_false_r, andb_false_r. reflexivity. }
  set (L := fun c => map (fun a => (a, f_colour f c)) (filter (fun a => keep_loc all_keep (snd a)) (f_stitched f c))) in *.
  set (R := fun c => map (fun a => (a, f_colour f c)) (filter (fun a => keep_loc k (snd a)) (f_stitched f c))) in *.
  assert (P' : forall c, filter (fun a => kept k (Sealed (fst (fst a)) (snd (fst a)) (snd a))) (L c)
                 = if match f_colour f c with Inside => k_sealed_in k | Outside => k_sealed_out k end then R c else [])
    by exact P.
  clear P. clearbody L R.
  pose proof (P' false) as Pf. pose proof (P' true) as Pt. clear P'.
  destruct (f_colour f false), (f_colour f true); cbn [flat_map app];
    rewrite app_nil_r, filter_app, Pf, Pt;
    destruct (k_sealed_in k), (k_sealed_out k); cbn [orb flat_map app]; rewrite ?app_nil_r; reflexivity.
Qed.

(** ** the whole kernel *)
Definition select (k : keep) (o : kout) : kout :=
  Kout (filter (fun a => kept k (Sealed (fst (fst a)) (snd (fst a)) (snd a))) (o_sealed o))
       (filter (fun a => kept k (Unsealed (fst a) (snd a))) (o_unsealed o))
       (filter (fun i => kept k (Patch i Inside)) (o_patch_in o))
       (filter (fun i => kept k (Patch i Outside)) (o_patch_out o))
       (k_seam_src k && o_seam_src o) (k_seam_cut k && o_seam_cut o).

Lemma created_select k o : created (select k o) = filter (kept k) (created o).
Proof.
  unfold created, select. cbn [o_sealed o_unsealed o_patch_in o_patch_out o_seam_src o_seam_cut].
  rewrite !filter_app, !filter_map. cbn [fst snd].
  repeat f_equal.
  - destruct (o_seam_src o); cbn [filter kept]; destruct (k_seam_src k); reflexivity.
  - destruct (o_seam_cut o); cbn [filter kept]; destruct (k_seam_cut k); reflexivity.
Qed.

Lemma kernel_select k f :
  k_unsealed k || k_partial k = k_unsealed k ->
  kernel_stages k f = select k (kernel_stages all_keep f).
Proof.
  intros H. unfold kernel_stages at 2. cbn [all_keep k_below k_above k_partial k_unsealed k_sealed_in k_sealed_out k_patch_in k_patch_out k_seam_src k_seam_cut orb negb andb].
  fold all_keep.
  pose proof (unsealed_stage_spec k f H) as U.
  pose proof (patch_stage_spec k f Inside) as PI. pose proof (patch_stage_spec k f Outside) as PO.
  pose proof (sealed_stage_spec k f) as S.
  assert (NL : k_below k = false -> k_above k = false -> k_partial k = false ->
               forall l q, filter (fun a : Z * floc * ploc => kept k (Sealed (fst (fst a)) (snd (fst a)) (snd a))) l = [] /\
                           filter (fun a : Z * floc => kept k (Unsealed (fst a) (snd a))) q = []).
  { intros A B C l q. split; apply filter_none; intros a; cbn [kept]; rewrite keep_loc_false by assumption;
      [destruct (snd a)|]; reflexivity. }
  assert (NS : k_sealed_in k = false -> k_sealed_out k = false ->
               forall l, filter (fun a : Z * floc * ploc => kept k (Sealed (fst (fst a)) (snd (fst a)) (snd a))) l = []).
  { intros A B l. apply filter_none. intros a. cbn [kept]. destruct (snd a); rewrite ?A, ?B; apply andb_false_r. }
  assert (NI : k_patch_in k = false -> forall l, filter (fun i => kept k (Patch i Inside)) l = []).
  { intros A l. apply filter_none. intros. exact A. }
  assert (NO : k_patch_out k = false -> forall l, filter (fun i => kept k (Patch i Outside)) l = []).
  { intros A l. apply filter_none. intros. exact A. }
  unfold kernel_stages, select.
  destruct (f_fill f); cbn [negb o_sealed o_unsealed o_patch_in o_patch_out o_seam_src o_seam_cut filter].
  - destruct (k_below k || k_above k || k_partial k || k_unsealed k || k_sealed_in k || k_sealed_out k || k_patch_in k || k_patch_out k) eqn:G1;
      cbn [negb].
    2:{ apply orb_false_iff in G1. destruct G1 as [G1 g8]. apply orb_false_iff in G1. destruct G1 as [G1 g7].
        apply orb_false_iff in G1. destruct G1 as [G1 g6]. apply orb_false_iff in G1. destruct G1 as [G1 g5].
        apply orb_false_iff in G1. destruct G1 as [G1 g4]. apply orb_false_iff in G1. destruct G1 as [G1 g3].
        apply orb_false_iff in G1. destruct G1 as [g1 g2].
        rewrite (NS g5 g6), (NI g7), (NO g8). rewrite (proj2 (NL g1 g2 g3 [] _)). reflexivity. }
    destruct (k_below k || k_above k || k_sealed_in k || k_sealed_out k || k_patch_in k || k_patch_out k) eqn:G2; cbn [negb].
    2:{ apply orb_false_iff in G2. destruct G2 as [G2 g6]. apply orb_false_iff in G2. destruct G2 as [G2 g5].
        apply orb_false_iff in G2. destruct G2 as [G2 g4]. apply orb_false_iff in G2. destruct G2 as [G2 g3].
        rewrite (NS g3 g4), (NI g5), (NO g6), U. reflexivity. }
    destruct (k_below k || k_above k || k_partial k || k_sealed_in k || k_sealed_out k) eqn:G3; cbn [negb].
    2:{ apply orb_false_iff in G3. destruct G3 as [G3 g5]. apply orb_false_iff in G3. destruct G3 as [G3 g4].
        rewrite (NS g4 g5), U, PI, PO. reflexivity. }
    rewrite U, PI, PO, S. reflexivity.
  - destruct (k_below k || k_above k || k_partial k || k_unsealed k || k_sealed_in k || k_sealed_out k || k_patch_in k || k_patch_out k) eqn:G1;
      cbn [negb]; [rewrite U; reflexivity|].
    apply orb_false_iff in G1. destruct G1 as [G1 g8]. apply orb_false_iff in G1. destruct G1 as [G1 g7].
    apply orb_false_iff in G1. destruct G1 as [G1 g6]. apply orb_false_iff in G1. destruct G1 as [G1 g5].
    apply orb_false_iff in G1. destruct G1 as [G1 g4]. apply orb_false_iff in G1. destruct G1 as [G1 g3].
    apply orb_false_iff in G1. destruct G1 as [g1 g2].
    rewrite (proj2 (NL g1 g2 g3 [] _)). reflexivity.
Qed.

Lemma filter_rev' {A} (p : A -> bool) l : filter p (rev l) = rev (filter p l).
Proof.
  induction l as [|a l IH]; [reflexivity|]. cbn. rewrite filter_app, IH. cbn. destruct (p a); cbn; rewrite ?app_nil_r; reflexivity.
Qed.

Lemma delivered_filter flags f :
  (bit flags 7 = true -> bit flags 10 = true) ->
  delivered flags f = filter (wanted flags) (delivered 0 f).
Proof.
  intros H. unfold delivered. rewrite filter_rev'. f_equal.
  assert (K0 : keep_of_flags 0 = all_keep) by reflexivity. rewrite K0.
  rewrite (filter_ext' _ (kept (keep_of_flags flags))) by (intros; symmetry; apply kept_wanted).
  rewrite <- created_select. f_equal. apply kernel_select.
  rewrite keep_spec. destruct (any_filter flags); [|reflexivity]. cbn [k_unsealed k_partial].
  destruct (bit flags 7), (bit flags 10); try reflexivity; specialize (H eq_refl); discriminate.
Qed.

Lemma delivered_none flags f : any_filter flags = false -> delivered flags f = delivered 0 f.
Proof. intros H. unfold delivered. f_equal. f_equal. f_equal. rewrite keep_spec, H. reflexivity. Qed.

Lemma all_filters_bits k : 0 <= k -> bit all_filters k = (5 <=? k) && (k <=? 14).
Proof.
  intros Hk. unfold bit. change all_filters with (Z.ldiff (2 ^ 15 - 1) (2 ^ 5 - 1)).
  rewrite Z.ldiff_spec. rewrite !Z.sub_1_r, <- !Z.ones_equiv, !Z.testbit_ones_nonneg by lia.
  destruct (Z.ltb_spec k 15), (Z.ltb_spec k 5), (Z.leb_spec 5 k), (Z.leb_spec k 14); try lia; reflexivity.
Qed.

Lemma delivered_all flags f : any_filter flags = false -> delivered (Z.lor flags all_filters) f = delivered flags f.
Proof.
  intros H. rewrite (delivered_none flags f H).
  unfold delivered. f_equal. f_equal. f_equal. rewrite keep_spec.
  assert (B : forall k, 5 <= k <= 14 -> bit (Z.lor flags all_filters) k = true).
  { intros k Hk. unfold bit. rewrite Z.lor_spec.
    change (Z.testbit all_filters k) with (bit all_filters k). rewrite all_filters_bits by lia.
    destruct (Z.leb_spec 5 k), (Z.leb_spec k 14); try lia; apply orb_true_r. }
  unfold any_filter. cbn [existsb]. rewrite !B by lia. reflexivity.
Qed.
