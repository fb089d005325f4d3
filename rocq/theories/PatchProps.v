(** C71, C72: the patches of the cut mesh and where they are. *)
From Coq Require Import List Arith Bool Lia Permutation Relations Reals Lra.
From Verif Require Import CutModel CutProofs ClipModel ClipProofs SplitModel SplitProofs PatchModel PatchSpec PatchProofs PatchColour PatchSeeds.
Import ListNotations.
Open Scope nat_scope.

(** C71.  From the two polygons beside the first edge of each curve the patches are found: each is a whole piece of the cut mesh between the curves, no two have a polygon in common, every piece beside the first edge of
    a curve is found, the patch of a polygon is known, and the seed of each patch is a polygon of it with the position of a halfedge of the first edge of a curve. *)
Theorem C71_patches polygons sm_count c sequences curves :
  two_meshes polygons sm_count opp (fun h => h < 2 * c) ->
  (forall idx, In idx curves -> bordered polygons sm_count (fun h => h < 2 * c) sequences idx) ->
  exists seeds s, seeds_of polygons sm_count curves sequences = Some seeds /\ build_patches polygons (2 * c) seeds = Some s /\
    are_patches polygons sm_count opp (fun h => h < 2 * c) (patches s) /\
    (forall idx e h p, In idx curves -> starts sequences idx e -> h = 2 * e \/ h = 2 * e + 1 -> cut_mesh_polygon polygons sm_count p -> side polygons p h -> In p (concat (patches s))) /\
    (forall p k, lookup (known s) p = Some k <-> exists P, nth_error (patches s) k = Some P /\ In p P) /\
    Forall2 (fun P seed => In (fst seed) P /\ exists idx e h polygon, In idx curves /\ starts sequences idx e /\ (h = 2 * e \/ h = 2 * e + 1) /\ nth_error polygons (fst seed) = Some polygon /\ nth_error polygon (snd seed) = Some h)
      (patches s) (patch_seeds s).
Proof.
  intros TM BO. destruct (patches_ok polygons sm_count c TM sequences curves BO) as (pairs & s & E & F & B & BI & SI & SE). exists (flat_map unpair pairs), s. split; [exact E|]. split; [exact B|]. split; [apply (b_patches _ _ _ _ BI)|]. split; [|split; [apply (b_known _ _ _ _ BI)|]].
  - intros idx e h p I ST H C S. destruct (curve_In _ _ _ _ _ _ F I) as (x & IX & e' & ST' & S0 & S1). assert (e' = e) by (destruct ST as (l & Z); destruct ST' as (l' & Z'); congruence). subst e'. apply seed_at_side in S0, S1. destruct (SI x IX) as [J0 J1].
    destruct H as [-> | ->]; [replace p with (fst (fst x)); [exact J0|]; apply (tm_once _ _ _ _ TM _ _ (2 * e)); tauto|replace p with (fst (snd x)); [exact J1|]; apply (tm_once _ _ _ _ TM _ _ (2 * e + 1)); tauto].
  - pose proof (b_seeds _ _ _ _ BI) as BB. clear - BB SE F. revert SE. induction BB as [|P seed l l' X Y IH]; intros SE; [constructor|]. inversion_clear SE as [|? ? SE1 SE2]. constructor; [|apply IH, SE2]. split; [exact X|]. destruct SE1 as (x & IX & O). destruct (pairs_In _ _ _ _ _ _ F IX) as (idx & I & e & ST & (C0 & l0 & A0 & B0) & (C1 & l1 & A1 & B1)).
    destruct O as [-> | ->]; [exists idx, e, (2 * e), l0|exists idx, e, (2 * e + 1), l1]; repeat split; auto.
Qed.

(** With one cut mesh and the curves complete, the patches make up the whole of it. *)
Theorem C71_all polygons sm_count c sequences curves seeds s :
  two_meshes polygons sm_count opp (fun h => h < 2 * c) -> sm_count <= length polygons ->
  (forall idx, In idx curves -> bordered polygons sm_count (fun h => h < 2 * c) sequences idx) -> curves <> [] ->
  curves_cover polygons sm_count opp (fun h => h < 2 * c) sequences curves ->
  (forall p q, cut_mesh_polygon polygons sm_count p -> cut_mesh_polygon polygons sm_count q -> connected polygons sm_count opp p q) ->
  seeds_of polygons sm_count curves sequences = Some seeds -> build_patches polygons (2 * c) seeds = Some s ->
  Permutation (concat (patches s)) (seq sm_count (length polygons - sm_count)).
Proof.
  intros TM LE BO NE CC CN ES EB. destruct (patches_ok polygons sm_count c TM sequences curves BO) as (pairs & s' & E & F & B & BI & SI & SE). assert (s' = s) by congruence. subst s'. clear ES EB.
  apply NoDup_Permutation; [apply (ap_once _ _ _ _ _ (b_patches _ _ _ _ BI))|apply seq_NoDup|]. intros p. rewrite in_seq. split.
  - intros I. apply in_concat in I. destruct I as (P & IP & I). pose proof (ap_cut_mesh _ _ _ _ _ (b_patches _ _ _ _ BI) P p IP I) as [X Y]. lia.
  - intros [X Y]. apply (known_concat _ _ _ _ BI). eapply all_known; try eassumption. split; lia.
Qed.

(** ** Exterior polygons *)
Section Exterior.
Variables (polygons : list (list nat)) (shuffle : forall A, list (nat * A) -> list (nat * A)) (seg : nat -> nat * nat) (registry : list (nat * nat)) (cnt sm_vtx_cnt sm_face_count : nat) (pvertex0 : nat -> nat) (psf : nat -> option nat * option nat) (normal position : nat -> vec) (vseq : list (nat * nat)) (curves : list nat).
Notation exterior_halfedge := (exterior_halfedge seg registry cnt sm_vtx_cnt sm_face_count pvertex0 psf normal position (fun x => x) vseq curves).
Notation crossing := (crossing cnt registry).
(** The points on the sides of the polygon are points where a cut-mesh edge crosses a source face or the other way round, and each is on a curve. *)
Definition sides_known (p : nat) : Prop := forall h v, side polygons p h -> v = src seg h \/ v = tgt seg h -> cnt <= v -> exists e f, crossing v e f /\ (sm_vtx_cnt <= pvertex0 e <-> f < sm_face_count) /\ exists idx, lookup vseq v = Some idx.
Lemma exterior_halfedge_ok p h : sides_known p -> side polygons p h -> exists b, exterior_halfedge h = Some b /\
  (b = true <-> exists e f idx, runs_to polygons (src seg) (tgt seg) cnt registry p h e f /\ lookup vseq (tgt seg h) = Some idx /\ In idx curves /\ (scalar_product (normal f) (difference (position (tgt seg h)) (position (src seg h))) < 0)%R).
Proof.
  intros SK S. unfold PatchModel.exterior_halfedge, runs_to. set (t := tgt seg h). set (s := src seg h). unfold ClipModel.ivtx. destruct (Nat.leb_spec cnt t) as [LT|LT]; cbn [negb].
  - destruct (SK h t S (or_intror eq_refl) LT) as (e & f & (_ & CR) & TF & idx & LK). rewrite LK. cbn [bind]. destruct (existsb (Nat.eqb idx) curves) eqn:EI; cbn [negb].
    + apply existsb_In in EI. rewrite CR. cbn [bind].
      assert (TFE : tested_face sm_vtx_cnt sm_face_count pvertex0 psf e f = Some f).
      { unfold tested_face. cbn [find]. destruct (Nat.leb_spec sm_vtx_cnt (pvertex0 e)) as [A|A].
        - assert (B : f < sm_face_count) by (apply TF, A). apply Nat.ltb_lt in B. rewrite B. reflexivity.
        - assert (B : sm_face_count <= f) by (apply Nat.nlt_ge; intros X; apply TF in X; lia). apply Nat.leb_le in B. rewrite B. reflexivity. }
      assert (DP : dot_product (fun x => x) (normal f) (vminus (fun x => x) (position t) (position s)) = scalar_product (normal f) (difference (position t) (position s))).
      { unfold dot_product, vminus, scalar_product, difference. destruct (normal f) as [[nx ny] nz]. destruct (position t) as [[tx ty] tz]. destruct (position s) as [[sx sy] sz]. ring. }
      assert (MAIN : (s < cnt \/ exists f', crossing s e f') -> exists b, (let* f0 := tested_face sm_vtx_cnt sm_face_count pvertex0 psf e f in Some (if Rlt_dec (dot_product (fun x => x) (normal f0) (vminus (fun x => x) (position t) (position s))) 0 then true else false)) = Some b /\ (b = true <-> (exists e f idx, (side polygons p h /\ crossing t e f /\ (s < cnt \/ exists f', crossing s e f')) /\ Some idx = Some idx /\ lookup vseq t = Some idx /\ In idx curves /\ (scalar_product (normal f) (difference (position t) (position s)) < 0)%R))).
      { intros RU. rewrite TFE. cbn [bind]. rewrite DP. destruct (Rlt_dec _ 0) as [N|N]; eexists; (split; [reflexivity|]).
        - split; [|reflexivity]. intros _. exists e, f, idx. repeat split; auto.
        - split; [discriminate|]. intros (e' & f' & idx' & (_ & (_ & CR') & _) & _ & _ & _ & X). exfalso. apply N. replace f with f' by congruence. exact X. }
      destruct (Nat.leb_spec cnt s) as [LS|LS]; cbn [negb orb].
      * destruct (SK h s S (or_introl eq_refl) LS) as (e' & f' & (_ & CR') & _). rewrite CR'. cbn [bind]. destruct (Nat.eqb_spec e' e) as [EE|EE]; cbn [negb].
        -- subst e'. destruct MAIN as (b & X & Y); [right; exists f'; split; assumption|]. exists b. split; [exact X|]. rewrite Y. split; intros (a1 & a2 & a3 & Z1 & Z2); exists a1, a2, a3; [rewrite <- LK; intuition congruence|intuition congruence].
        -- exists false. split; [reflexivity|]. split; [discriminate|]. intros (e2 & f2 & idx2 & (_ & (_ & A) & [B|(f3 & _ & B)]) & _); [lia|]. congruence.
      * cbn [bind]. destruct MAIN as (b & X & Y); [left; exact LS|]. exists b. split; [exact X|]. rewrite Y. split; intros (a1 & a2 & a3 & Z1 & Z2); exists a1, a2, a3; [rewrite <- LK; intuition congruence|intuition congruence].
    + exists false. split; [reflexivity|]. split; [discriminate|]. intros (e2 & f2 & idx2 & _ & A & B & _). apply existsb_nIn in EI. congruence.
  - exists false. split; [reflexivity|]. split; [discriminate|]. intros (e2 & f2 & idx2 & (_ & (A & _) & _) & _). lia.
Qed.
Notation approaches := (approaches polygons (src seg) (tgt seg) position cnt registry normal (lookup vseq) curves).
Notation exterior_at := (exterior_at seg registry cnt sm_vtx_cnt sm_face_count pvertex0 psf normal position (fun x => x) vseq curves).
Lemma exterior_at_ok p polygon : sides_known p -> nth_error polygons p = Some polygon -> exists r, exterior_at 0 polygon = Some r /\ (r <> None <-> approaches p).
Proof.
  intros SK E. assert (G : forall l i, incl l polygon -> exists r, exterior_at i l = Some r /\ (r <> None <-> exists h, In h l /\ exists e f idx, runs_to polygons (src seg) (tgt seg) cnt registry p h e f /\ lookup vseq (tgt seg h) = Some idx /\ In idx curves /\ (scalar_product (normal f) (difference (position (tgt seg h)) (position (src seg h))) < 0)%R)).
  { induction l as [|h l IH]; intros i IL; [exists None; split; [reflexivity|]; split; [congruence|intros (h & [] & _)]|]. assert (SS : side polygons p h) by (exists polygon; split; [exact E|apply IL; left; reflexivity]).
    destruct (exterior_halfedge_ok p h SK SS) as (b & X & Y). cbn [PatchModel.exterior_at]. rewrite X. cbn [bind]. destruct b.
    - exists (Some i). split; [reflexivity|]. split; [intros _|discriminate]. exists h. split; [left; reflexivity|]. apply Y. reflexivity.
    - destruct (IH (S i)) as (r & Z & W); [intros y I; apply IL; right; exact I|]. exists r. split; [exact Z|]. rewrite W. split; [intros (h' & I & A); exists h'; split; [right; exact I|exact A]|]. intros (h' & [<-|I] & A); [apply Y in A; discriminate|eauto]. }
  destruct (G polygon 0 (incl_refl _)) as (r & X & Y). exists r. split; [exact X|]. rewrite Y. unfold PatchSpec.approaches. split.
  - intros (h & _ & e & f & idx & A). exists h, e, f, idx. exact A.
  - intros (h & e & f & idx & A). exists h. split; [|exists e, f, idx; exact A]. destruct A as (((l & L & I) & _) & _). congruence.
Qed.
(** Of the given polygons those that approach the source mesh are found. *)
Lemma exterior_polygons_ok adjacent : curves <> [] -> (forall p, In p adjacent -> p < length polygons /\ sides_known p) ->
  exists ext, exterior_polygons polygons seg registry cnt sm_vtx_cnt sm_face_count pvertex0 psf normal position (fun x => x) vseq curves adjacent = Some ext /\ forall p, In p (map fst ext) <-> In p adjacent /\ approaches p.
Proof.
  intros NE H. unfold exterior_polygons. destruct curves as [|c0 cs] eqn:EC; [congruence|]. rewrite <- EC in *.
  assert (G : forall l acc, (forall p, In p l -> p < length polygons /\ sides_known p) -> exists ext, fold_left (fun acc p => let* acc := acc in if CutModel.mem acc p then Some acc else let* polygon := nth_error polygons p in let* r := exterior_at 0 polygon in Some (match r with Some i => set acc p i | None => acc end)) l (Some acc) = Some ext /\ forall p, In p (map fst ext) <-> In p (map fst acc) \/ In p l /\ approaches p).
  { assert (SK' : forall (m : list (nat * nat)) k (a : nat) i, In i (map fst (set m k a)) <-> In i (map fst m) \/ i = k). { induction m as [|[k' a'] m IHm]; intros k a i; cbn; [intuition congruence|]. destruct (Nat.eqb_spec k k') as [E|E]; cbn; [subst; intuition congruence|]. rewrite IHm. tauto. }
    induction l as [|p l IH]; intros acc HL; [exists acc; split; [reflexivity|]; intros p; cbn; tauto|]. assert (HL' : forall q, In q l -> q < length polygons /\ sides_known q) by (intros; apply HL; right; assumption). cbn [fold_left bind]. destruct (CutModel.mem acc p) eqn:M.
    - destruct (IH acc HL') as (ext & X & Y). exists ext. split; [exact X|]. intros q. rewrite Y. apply mem_In in M. cbn. split; [tauto|]. intros [A|[[A|A] B]]; [auto|subst q; auto|auto].
    - destruct (HL p (or_introl eq_refl)) as [L SK]. destruct (nth_error polygons p) as [polygon|] eqn:EP; [|apply nth_error_None in EP; lia]. cbn [bind]. destruct (exterior_at_ok p polygon SK EP) as (r & R1 & R2). rewrite R1. cbn [bind].
      destruct (IH (match r with Some i => set acc p i | None => acc end) HL') as (ext & X & Y). exists ext. split; [exact X|]. intros q. rewrite Y. cbn. destruct r as [i|].
      + rewrite SK'. assert (AP : approaches p) by (apply R2; discriminate). split; [intros [[A|A]|A]; [auto|subst q; auto|tauto]|]. intros [A|[[A|A] B]]; [auto|subst q; auto|auto].
      + assert (NA : ~ approaches p) by (intros A; apply R2 in A; congruence). split; [tauto|]. intros [A|[[A|A] B]]; [auto|subst q; contradiction|auto]. }
  destruct (G adjacent [] H) as (ext & X & Y). exists ext. split; [exact X|]. intros p. rewrite Y. cbn. tauto.
Qed.
End Exterior.

(** The first patch grows from the last seed. *)
Lemma first_patch polygons sm_count c seeds x s : build_patches polygons (2 * c) (seeds ++ [x]) = Some s -> binv polygons sm_count c s -> lookup (known s) (fst x) = Some 0.
Proof.
  intros E B. assert (G : forall l s0 s1, fold_left (fun s seed => let* s := s in from_seed polygons (2 * c) s seed) l (Some s0) = Some s1 -> exists t, patch_seeds s1 = patch_seeds s0 ++ t).
  { induction l as [|y l IH]; intros s0 s1 H; [injection H as <-; exists []; rewrite app_nil_r; reflexivity|]. cbn [fold_left bind] in H. destruct (from_seed polygons (2 * c) s0 y) as [s2|] eqn:F; [|exfalso; clear - H; induction l; cbn in H; [discriminate|auto]]. destruct (IH s2 s1 H) as (t & T). unfold from_seed in F. destruct (CutModel.mem (known s0) (fst y)); [injection F as <-; eauto|].
    destruct (flood _ _ _ _ _ _ _ _) as [[[P K] Q]|]; [|discriminate]. cbn [bind] in F. injection F as <-. cbn in T. rewrite <- app_assoc in T. eauto. }
  unfold build_patches in E. rewrite rev_app_distr in E. cbn [rev app fold_left bind] in E. destruct (from_seed polygons (2 * c) nothing_found x) as [s1|] eqn:F; [|exfalso; clear - E; induction (rev seeds); cbn in E; [discriminate|auto]].
  destruct (G _ _ _ E) as (t & T). unfold from_seed in F. cbn [CutModel.mem nothing_found PatchModel.known map existsb] in F. destruct (flood _ _ _ _ _ _ _ _) as [[[P K] Q]|]; [|discriminate]. cbn [bind] in F. injection F as <-. cbn in T.
  apply (b_known _ _ _ _ B). pose proof (b_seeds _ _ _ _ B) as BB. rewrite T in BB. inversion BB as [|P0 ? l ? X Y EP]. exists P0. auto.
Qed.

(** C72.  The patches are sorted into two groups: one holds exactly those on the same side of the source mesh as the first patch. *)
Theorem C72_colours polygons sm_count c sequences curves seeds s shuffle inside :
  two_meshes polygons sm_count opp (fun h => h < 2 * c) ->
  (forall idx, In idx curves -> bordered polygons sm_count (fun h => h < 2 * c) sequences idx) -> curves <> [] ->
  curves_cover polygons sm_count opp (fun h => h < 2 * c) sequences curves ->
  (forall p q, cut_mesh_polygon polygons sm_count p -> cut_mesh_polygon polygons sm_count q -> connected polygons sm_count opp p q) ->
  located polygons sm_count opp (fun h => h < 2 * c) inside ->
  (forall A (m : list (nat * A)), Permutation (shuffle A m) m) ->
  seeds_of polygons sm_count curves sequences = Some seeds -> build_patches polygons (2 * c) seeds = Some s ->
  exists red blue, colours shuffle seeds s = Some (red, blue) /\ Permutation (red ++ blue) (seq 0 (length (patches s))) /\
    forall k P p P0 p0, nth_error (patches s) k = Some P -> In p P -> nth_error (patches s) 0 = Some P0 -> In p0 P0 -> (In k red <-> inside p = inside p0).
Proof.
  intros TM BO NE CC CN LO SH ES EB. destruct (patches_ok polygons sm_count c TM sequences curves BO) as (pairs & s' & E & F & B & BI & SI & SE). assert (s' = s) by congruence. subst s'. assert (seeds = flat_map unpair pairs) by congruence. subst seeds. clear ES EB.
  assert (L : 0 < length (patches s)). { assert (EXP : exists x, In x pairs) by (destruct curves as [|c0 cs]; [congruence|]; inversion F; subst; eexists; left; reflexivity). destruct EXP as (x & I). destruct (SI x I) as [A _]. destruct (patches s); [destruct A|cbn; lia]. }
  destruct (patch_some _ _ _ _ BI 0 L) as (p0 & K0). destruct (colours_ok polygons sm_count c TM sequences curves BO inside LO CC CN pairs s F BI SI SE NE shuffle p0 SH K0) as (red & blue & X & Y & Z). exists red, blue. split; [exact X|]. split; [exact Y|].
  intros k P p P0 q EP IP E0 I0. rewrite (Z k p); [|apply (b_known _ _ _ _ BI); eauto]. assert (T : inside q = inside p0). { apply (together_inside _ _ _ inside LO). apply (known_same _ _ _ _ BI _ _ 0); [apply (b_known _ _ _ _ BI); eauto|exact K0]. } rewrite T. tauto.
Qed.

(** C72.  Every polygon of the cut mesh is in a patch, and the patch is labelled inside exactly if the polygon is inside the source mesh, provided a polygon that approaches the front of a source face is outside.  If no
    polygon does, the polygon to the right of the first edge of the last curve has to be inside. *)
Theorem C72_located polygons sm_count c sequences curves shuffle inside seg registry cnt sm_vtx_cnt sm_face_count pvertex0 psf normal position vseq adjacent :
  two_meshes polygons sm_count opp (fun h => h < 2 * c) -> sm_count <= length polygons ->
  (forall idx, In idx curves -> bordered polygons sm_count (fun h => h < 2 * c) sequences idx) -> curves <> [] ->
  curves_cover polygons sm_count opp (fun h => h < 2 * c) sequences curves ->
  (forall p q, cut_mesh_polygon polygons sm_count p -> cut_mesh_polygon polygons sm_count q -> connected polygons sm_count opp p q) ->
  located polygons sm_count opp (fun h => h < 2 * c) inside ->
  (forall A (m : list (nat * A)), Permutation (shuffle A m) m) ->
  (forall p, In p adjacent -> cut_mesh_polygon polygons sm_count p /\ sides_known polygons seg registry cnt sm_vtx_cnt sm_face_count pvertex0 vseq p) ->
  let approaches := approaches polygons (src seg) (tgt seg) position cnt registry normal (lookup vseq) curves in
  (forall p, In p adjacent -> approaches p -> inside p = false) ->
  ((forall p, In p adjacent -> ~ approaches p) -> forall e p, starts sequences (last curves 0) e -> cut_mesh_polygon polygons sm_count p -> side polygons p (2 * e + 1) -> inside p = true) ->
  exists s label, locate_patches polygons sm_count (2 * c) shuffle seg registry cnt sm_vtx_cnt sm_face_count pvertex0 psf normal position (fun x => x) vseq curves sequences adjacent = Some (s, label) /\
    are_patches polygons sm_count opp (fun h => h < 2 * c) (patches s) /\ Permutation (concat (patches s)) (seq sm_count (length polygons - sm_count)) /\
    forall k P p, nth_error (patches s) k = Some P -> In p P -> label k = inside p.
Proof.
  intros TM LE BO NE CC CN LO SH AD approaches OUT NONE.
  destruct (patches_ok polygons sm_count c TM sequences curves BO) as (pairs & s & E & F & B & BI & SI & SE).
  assert (L : 0 < length (patches s)). { assert (EXP : exists x, In x pairs) by (destruct curves as [|c0 cs]; [congruence|]; inversion F; subst; eexists; left; reflexivity). destruct EXP as (x & I). destruct (SI x I) as [A _]. destruct (patches s); [destruct A|cbn; lia]. }
  destruct (patch_some _ _ _ _ BI 0 L) as (p0 & K0). destruct (colours_ok polygons sm_count c TM sequences curves BO inside LO CC CN pairs s F BI SI SE NE shuffle p0 SH K0) as (red & blue & X & Y & Z).
  destruct (exterior_polygons_ok polygons seg registry cnt sm_vtx_cnt sm_face_count pvertex0 psf normal position vseq curves adjacent NE) as (ext & EX & EI); [intros p I; destruct (AD p I) as [[_ A1] A2]; auto|]. fold approaches in EI.
  assert (AK : forall p, cut_mesh_polygon polygons sm_count p -> exists k, lookup (known s) p = Some k) by (intros p C; eapply all_known; eassumption).
  assert (RE : red_is_inside shuffle ext s red blue = Some (inside p0)).
  { assert (CL : forall k p, lookup (known s) p = Some k -> (if existsb (Nat.eqb k) red then Some true else if existsb (Nat.eqb k) blue then Some false else None) = Some (eqb (inside p) (inside p0))).
    { intros k p P. specialize (Z k p P). destruct (existsb (Nat.eqb k) red) eqn:ER; [apply existsb_In in ER; rewrite (proj1 Z ER), eqb_reflx; reflexivity|]. apply existsb_nIn in ER. assert (IB : In k blue). { assert (I : In k (red ++ blue)) by (apply (Permutation_in _ (Permutation_sym Y)), in_seq; pose proof (known_lt _ _ _ _ BI _ _ P); lia). apply in_app_iff in I. tauto. } apply existsb_In in IB. rewrite IB. f_equal. symmetry. apply eqb_false_iff. tauto. }
    unfold red_is_inside. destruct (shuffle nat ext) as [|[p i] rest] eqn:ES.
    - destruct (patches s) eqn:EP; [cbn in L; lia|]. rewrite (CL 0 p0 K0), eqb_reflx. f_equal. symmetry.
      assert (EN : ext = []) by (apply Permutation_nil; rewrite <- ES; apply SH). subst ext.
      assert (exists cs' x' ps', last curves 0 = cs' /\ pairs = ps' ++ [x'] /\ pair_at polygons sm_count sequences cs' x') as (idx & x & ps & EL & EPS & e & ST & _ & S1).
      { clear - F NE. induction F as [|i y cs ps A F IH]; [congruence|]. destruct cs as [|i' cs]; [inversion F; subst; exists i, y, []; auto|]. destruct IH as (a & b & d & X1 & X2 & X3); [discriminate|]. exists a, b, (y :: d). rewrite X2. auto. }
      subst idx. apply seed_at_side in S1. rewrite EPS, flat_map_app in B. cbn in B. change ([fst x; snd x]) with ([fst x] ++ [snd x]) in B. rewrite app_assoc in B. pose proof (first_patch _ _ _ _ _ _ B BI) as K1.
      rewrite (together_inside _ _ _ inside LO _ _ (known_same _ _ _ _ BI _ _ _ K0 K1)). apply (NONE) with (e := e); [|exact ST|apply S1|apply S1]. intros p I A. apply (proj2 (EI p)). auto.
    - assert (IP : In p (map fst ext)) by (apply (Permutation_in _ (Permutation_map fst (SH _ ext))); rewrite ES; left; reflexivity). apply EI in IP. destruct IP as [IP AP]. destruct (AK p) as (k & K); [apply AD, IP|]. rewrite K. cbn [bind]. rewrite (CL k p K). cbn [bind]. rewrite (OUT p IP AP). destruct (inside p0); reflexivity. }
  exists s. eexists. split; [unfold locate_patches; rewrite EX; cbn [bind]; rewrite E; cbn [bind]; rewrite B; cbn [bind]; rewrite X; cbn [bind]; rewrite RE; cbn [bind]; reflexivity|].
  split; [apply (b_patches _ _ _ _ BI)|]. split; [eapply C71_all; eassumption|].
  intros k P p EP IP. assert (K : lookup (known s) p = Some k) by (apply (b_known _ _ _ _ BI); eauto). specialize (Z k p K). cbn. destruct (existsb (Nat.eqb k) red) eqn:ER; [apply existsb_In in ER; symmetry; tauto|]. apply existsb_nIn in ER. destruct (inside p), (inside p0); cbn; tauto.
Qed.
