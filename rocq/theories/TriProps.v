(** C42 (and C37, C36): triangulation and triangulation map. *)
From Coq Require Import List ZArith Lia Bool Permutation.
From Verif Require Import Vec VecLemmas HmeshModel HmeshSpec HmeshCore HmeshFaces HmeshIter InputModel InputSpec InputProofs ExtractProofs ParModel ParProofs DataModel DataSpec DataProofs DataRows DataFan DataProps TriModel TriSpec TriProofs.
Import ListNotations.
Open Scope Z_scope.
Ltac Zify.zify_post_hook ::= idtac.

Lemma vget_front {A} (a b : list A) i : i < zlen a -> vget (a ++ b) i = vget a i.
Proof. intros H. unfold vget, zlen in *. destruct (Z.ltb_spec i 0); [reflexivity|]. apply nth_error_app1. lia. Qed.
Lemma vget_back {A} (a b : list A) i : zlen a <= i -> vget (a ++ b) i = vget b (i - zlen a).
Proof.
  intros H. unfold vget, zlen in *. destruct (Z.ltb_spec i 0); [lia|]. destruct (Z.ltb_spec (i - Z.of_nat (length a)) 0); [lia|].
  rewrite nth_error_app2 by lia. f_equal. lia.
Qed.

(** ** One face *)

Lemma wrap_back n i : 0 <= i < n -> wrap_integer (- (i + 1)) 0 (n - 1) = n - 1 - i.
Proof.
  intros H. unfold wrap_integer. destruct (Z.ltb_spec (- (i + 1)) 0); [|lia].
  replace (n - 1 - 0 + 1) with n by lia. replace (0 - - (i + 1)) with (i + 1) by lia.
  destruct (Z.eq_dec (i + 1) n) as [E|E].
  - rewrite E, Z.div_same by lia. replace (- n + n * (1 + 1) - 0) with (0 + 1 * n) by lia. rewrite Z.mod_add by lia. rewrite Z.mod_0_l by lia. lia.
  - rewrite (Z.div_small (i + 1)) by lia. rewrite Z.mod_small by lia. lia.
Qed.

Lemma vmap_ok n flipped i : 0 <= i < n -> vget (face_to_cdt_vmap n flipped) i = Some (if flipped then n - 1 - i else i).
Proof.
  intros H. unfold face_to_cdt_vmap. rewrite DispatchCand.vget_map, vget_zrange by exact H. cbn [option_map]. destruct flipped; [rewrite wrap_back by exact H|]; reflexivity.
Qed.

Lemma vmap_range n flipped i v : vget (face_to_cdt_vmap n flipped) i = Some v -> 0 <= v < n.
Proof.
  intros H. pose proof (vget_Some_range _ _ _ H) as R. unfold face_to_cdt_vmap in R. rewrite zlen_map' in R. unfold zrange, zlen in R. rewrite map_length, seq_length in R.
  assert (R' : 0 <= i < n) by lia. rewrite (vmap_ok n flipped i R') in H. injection H as <-. destruct flipped; lia.
Qed.

(** The indices that the walk of triangulate_face produces are triples of local vertices: each
    one is a triangle of the constrained triangulation, translated to the order of the face's
    vertices, in its own or in the opposite orientation. *)
Theorem triangulate_face_triples : forall fuel tris n flipped wotv wot seeds ls,
  (forall t, In t tris -> zlen (ct_v t) = 3) ->
  emit fuel tris (face_to_cdt_vmap n flipped) wotv wot seeds [] [] = Some ls ->
  exists ts, triples ls ts /\ (forall i, In i ls -> 0 <= i < n) /\
    forall t, In t ts -> exists ct, In ct tris /\ (forall i, In i (ct_v ct) -> 0 <= i < n) /\
      let vs := map (fun i => if flipped then n - 1 - i else i) (ct_v ct) in t = vs \/ t = rev vs.
Proof.
  intros fuel tris n flipped wotv wot seeds ls H3.
  assert (G : forall fuel wot seeds trav out ls, emit fuel tris (face_to_cdt_vmap n flipped) wotv wot seeds trav out = Some ls ->
    exists ts, ls = out ++ concat ts /\ forall t, In t ts -> exists ct, In ct tris /\ (forall i, In i (ct_v ct) -> 0 <= i < n) /\
      let vs := map (fun i => if flipped then n - 1 - i else i) (ct_v ct) in t = vs \/ t = rev vs).
  { clear fuel wot seeds ls. induction fuel as [|fuel IH]; intros wot seeds trav out ls E; [discriminate|]. cbn [emit] in E. destruct seeds as [|t seeds].
    - injection E as <-. exists []. rewrite app_nil_r. split; [reflexivity|]. intros t [].
    - destruct (vget tris t) as [ct|] eqn:Et; [|discriminate]. cbn [obind] in E. destruct (omap (vget (face_to_cdt_vmap n flipped)) (ct_v ct)) as [vs|] eqn:Ev; [|discriminate]. cbn [obind] in E.
      destruct (omap (vget wotv) vs) as [ws|]; [|discriminate]. cbn [obind] in E. destruct (is_insertable wot ws) as [ins|]; [|discriminate]. cbn [obind] in E.
      assert (Hin : In ct tris) by (eapply vget_In; exact Et).
      assert (Rg : forall i, In i (ct_v ct) -> 0 <= i < n).
      { intros i Hi. destruct (omap_In _ _ _ _ Ev Hi) as (v & Hv & _). pose proof (vget_Some_range _ _ _ Hv) as R. unfold face_to_cdt_vmap in R. rewrite zlen_map' in R. unfold zrange, zlen in R. rewrite map_length, seq_length in R. lia. }
      assert (Evs : vs = map (fun i => if flipped then n - 1 - i else i) (ct_v ct)).
      { rewrite (omap_ok _ (fun i => if flipped then n - 1 - i else i)) in Ev by (intros i Hi; apply vmap_ok, Rg; exact Hi). congruence. }
      destruct (if ins then (vs, ws) else (rev vs, rev ws)) as [vs' ws'] eqn:Ei.
      assert (Hv' : vs' = vs \/ vs' = rev vs) by (destruct ins; injection Ei as <- <-; auto).
      destruct (add_face wot ws') as [fc wot'|wot'|]; [| |discriminate].
      + destruct (IH _ _ _ _ _ E) as (ts & -> & Ht). exists (vs' :: ts). cbn [concat]. rewrite <- app_assoc. split; [reflexivity|]. intros u [<-|Hu]; [|apply Ht; exact Hu].
        exists ct. rewrite <- Evs. auto.
      + apply (IH _ _ _ _ _ E). }
  intros E. destruct (G _ _ _ _ _ _ E) as (ts & -> & Ht). exists ts. cbn [app]. split; [split; [reflexivity|]|split].
  - intros t Hin. destruct (Ht t Hin) as (ct & Hc & _ & [-> | ->]); [|unfold zlen; rewrite rev_length; fold (zlen (map (fun i => if flipped then n - 1 - i else i) (ct_v ct)))]; rewrite zlen_map'; apply H3; exact Hc.
  - intros i Hi. apply in_concat in Hi. destruct Hi as (t & Hin & Hi). destruct (Ht t Hin) as (ct & Hc & Rg & Ev). cbv zeta in Ev.
    assert (In i (map (fun i => if flipped then n - 1 - i else i) (ct_v ct))) as K by (destruct Ev as [-> | ->]; [exact Hi|apply in_rev; exact Hi]).
    apply in_map_iff in K. destruct K as (j & <- & Hj). specialize (Rg j Hj). destruct flipped; lia.
  - exact Ht.
Qed.

(** ** All faces *)

(** The caches hold, for every schedule of the threads, the triangles of each face exactly once
    and next to each other; the map has, at the same place, the user's face. *)
Theorem C42_faces : forall e c tri idx fm, component_mesh (c_mesh c) -> pool_ok e -> triangulates (c_mesh c) tri ->
  zlen (c_fmap c) = zlen (faces (c_mesh c)) -> tri_total c tri < 2 ^ 32 -> tri_result e c tri true idx fm ->
  exists l : list (Z * list (list Z)),
    Permutation (zrange (zlen (faces (c_mesh c)))) (map fst l) /\
    (forall f ts, In (f, ts) l -> made_from (c_mesh c) tri f ts) /\
    idx = concat (concat (map snd l)) /\
    exists us, fm = concat us /\ Forall2 (fun p u => zlen u = zlen (snd p) /\ forall x, In x u -> names c (fst p) x) l us.
Proof.
  intros e c tri idx fm C P T FM Sm R. apply (result_iff e c tri true C P T (fun _ => FM) Sm) in R. destruct R as (bs & order & Eb & Po & -> & ->).
  destruct (blocks_exist e c true C P (fun _ => FM)) as (bs' & Eb' & Ce). assert (bs' = bs) by congruence. subst bs'.
  pose proof (faces_in_perm c true bs order Ce Po) as Pf. set (fs := faces_in bs order) in *. clearbody fs.
  assert (Rf : forall f, In f fs -> 0 <= f < zlen (faces (c_mesh c))) by (intros f Hf; apply In_zrange, (Permutation_in _ (Permutation_sym Pf)); exact Hf).
  assert (G : forall fs, (forall f, In f fs -> 0 <= f < zlen (faces (c_mesh c))) -> exists l : list (Z * list (list Z)), map fst l = fs /\ (forall f ts, In (f, ts) l -> made_from (c_mesh c) tri f ts) /\
     concat (map (I_of c tri true) fs) = concat (concat (map snd l)) /\ exists us, concat (map (M_of c tri true) fs) = concat us /\ Forall2 (fun p u => zlen u = zlen (snd p) /\ forall x, In x u -> names c (fst p) x) l us).
  { clear fs Pf Rf. induction fs as [|f fs IH]; intros Rf.
    - exists []. split; [reflexivity|]. split; [intros f ts []|]. split; [reflexivity|]. exists []. split; [reflexivity|constructor].
    - destruct IH as (l & E1 & E2 & E3 & us & E4 & E5); [intros g Hg; apply Rf; right; exact Hg|].
      destruct (face_local_ok c tri true C T (fun _ => FM) true f (fun K => K) (Rf f (or_introl eq_refl))) as (ts & M & L & E).
      exists ((f, ts) :: l). split; [cbn; rewrite E1; reflexivity|]. split; [intros g us' [K|K]; [injection K as <- <-; exact M|apply E2; exact K]|].
      cbn [map concat snd]. rewrite concat_app. split; [rewrite E3; unfold I_of; rewrite E; reflexivity|].
      exists (map (fun _ => user_of c f) ts :: us). split; [cbn [concat]; rewrite E4; unfold M_of; rewrite E; reflexivity|]. constructor; [|exact E5]. cbn [fst snd].
      split; [apply zlen_map'|]. intros x Hx. apply in_map_iff in Hx. destruct Hx as (t & <- & _). unfold names, user_of.
      destruct (vget_range_Some (c_fmap c) f) as [k K]; [rewrite FM; apply Rf; left; reflexivity|]. exists k. rewrite K. auto. }
  destruct (G fs Rf) as (l & E1 & E2 & E3 & us & E4 & E5). exists l. rewrite E1. split; [exact Pf|]. split; [exact E2|]. split; [exact E3|]. exists us. auto.
Qed.

(** some schedule exists: the loop has a result *)
Theorem C42_result_exists : forall e c tri, component_mesh (c_mesh c) -> pool_ok e -> triangulates (c_mesh c) tri ->
  zlen (c_fmap c) = zlen (faces (c_mesh c)) -> tri_total c tri < 2 ^ 32 -> exists idx fm, tri_result e c tri true idx fm.
Proof.
  intros e c tri C P T FM Sm. destruct (blocks_exist e c true C P (fun _ => FM)) as (bs & Eb & Ce). eexists. eexists. apply (result_iff e c tri true C P T (fun _ => FM) Sm). exists bs, (zrange (zlen bs)). split; [exact Eb|]. split; [reflexivity|]. split; reflexivity.
Qed.

Lemma lines_up_blocks c (l : list (Z * list (list Z))) us : (forall f ts, In (f, ts) l -> exists vs, get_vertices_around_face (c_mesh c) f = Some vs /\ forall t, In t ts -> zlen t = 3 /\ forall v, In v t -> In v vs) ->
  Forall2 (fun p u => zlen u = zlen (snd p) /\ forall x, In x u -> names c (fst p) x) l us -> lines_up c (concat (concat (map snd l))) (concat us).
Proof.
  intros H F.
  (* one triangle after the other *)
  assert (G : forall (ts : list (list Z)) u, length u = length ts -> (forall t x, In (t, x) (combine ts u) -> exists f vs, get_vertices_around_face (c_mesh c) f = Some vs /\ names c f x /\ zlen t = 3 /\ forall v, In v t -> In v vs) -> lines_up c (concat ts) u).
  { clear. induction ts as [|t ts IH]; intros u L H; destruct u as [|x u]; try discriminate.
    - split; [reflexivity|]. intros t Ht. unfold zlen in Ht. cbn in Ht. lia.
    - injection L as L. destruct (IH u L) as [L1 L2]; [intros t' x' K; apply H; right; exact K|]. destruct (H t x (or_introl eq_refl)) as (f & vs & E & N & L3 & Iv).
      cbn [concat]. split; [rewrite zlen_app, L1, L3; unfold zlen; cbn [length]; lia|]. intros k Hk. destruct (Z.eq_dec k 0) as [->|K0].
      + exists f, vs, x. split; [exact E|]. split; [reflexivity|]. split; [exact N|]. intros j Hj. destruct (vget_range_Some t j) as [v Hv]; [lia|]. exists v. split; [|apply Iv; eapply vget_In; exact Hv].
        replace (3 * 0 + j) with j by lia. rewrite vget_front by lia. exact Hv.
      + assert (Hk' : 0 <= k - 1 < zlen u) by (unfold zlen in *; cbn [length] in Hk; lia). destruct (L2 (k - 1) Hk') as (f' & vs' & u' & E' & V' & N' & J'). exists f', vs', u'. split; [exact E'|]. split.
        * change (x :: u) with ([x] ++ u). rewrite vget_back by (change (zlen [x]) with 1; lia). exact V'.
        * split; [exact N'|]. intros j Hj. destruct (J' j Hj) as (v & Hv & Iv'). exists v. split; [|exact Iv']. rewrite vget_back by lia. rewrite L3. replace (3 * k + j - 3) with (3 * (k - 1) + j) by lia. exact Hv. }
  apply G.
  - clear - F. induction F as [|p u l us [L _] F IH]; [reflexivity|]. cbn [map concat]. rewrite !app_length, IH. unfold zlen in L. lia.
  - intros t x K.
    assert (Q : exists p u, In p l /\ In t (snd p) /\ In x u /\ forall y, In y u -> names c (fst p) y).
    { clear - F K. induction F as [|p u l us [L N] F IH]; [destruct K|]. cbn [map concat] in K. rewrite combine_app_eq in K by (unfold zlen in L; lia). apply in_app_iff in K. destruct K as [K|K].
      - exists p, u. split; [left; reflexivity|]. split; [eapply in_combine_l; exact K|]. split; [eapply in_combine_r; exact K|exact N].
      - destruct (IH K) as (p' & u' & A & B). exists p', u'. split; [right; exact A|exact B]. }
    destruct Q as ([f ts] & u & A & B & D & N). destruct (H f ts A) as (vs & E & Hv). exists f, vs. split; [exact E|]. split; [apply N; exact D|]. apply Hv. exact B.
Qed.

(** Default winding: entry i of the map names a face that has the vertices of triangle i. *)
Theorem C42_lines_up_partial : forall e c tri idx fm, component_mesh (c_mesh c) -> pool_ok e -> triangulates (c_mesh c) tri ->
  zlen (c_fmap c) = zlen (faces (c_mesh c)) -> tri_total c tri < 2 ^ 32 -> tri_result e c tri true idx fm -> lines_up c idx fm.
Proof.
  intros e c tri idx fm C P T FM Sm R. destruct (C42_faces e c tri idx fm C P T FM Sm R) as (l & Pl & Ml & -> & us & -> & F). apply lines_up_blocks; [|exact F].
  intros f ts H. destruct (Ml f ts H) as (vs & E & [[L ->]|(L & ls & Et & Ec & L3)]); exists vs; (split; [exact E|]).
  - intros t [<-|[]]. auto.
  - intros t Ht. split; [apply L3; exact Ht|]. intros v Hv.
    assert (K : In v (map (fun i => nth (Z.to_nat i) vs 0) ls)) by (rewrite Ec; apply in_concat; exists t; auto). apply in_map_iff in K. destruct K as (i & <- & Hi).
    destruct (T f vs E L) as (ls' & ts' & Et' & _ & Rg). assert (ls' = ls) by congruence. subst ls'. eapply vget_In. apply vget_nth. apply Rg. exact Hi.
Qed.

(** ** The queries *)

Definition empty_caches : tcache := TC None None.
Definition full_caches (idx fm : list Z) : tcache := TC (Some idx) (Some fm).

Lemma maps_on c : 0 < zlen (c_fmap c) < 2 ^ 32 -> negb (wrap32 (zlen (c_fmap c)) =? 0) = true.
Proof. intros H. unfold wrap32. rewrite Z.mod_small by lia. destruct (Z.eqb_spec (zlen (c_fmap c)) 0); [lia|reflexivity]. Qed.

(** If the triangulation is queried first (size or data), the computed arrays are kept: from then
    on both queries agree with them, in the default winding, and change nothing. *)
Theorem C42_queries_partial : forall e c idx fm d0, 0 < zlen (c_fmap c) < 2 ^ 32 -> e_flip e = false -> zlen idx = 3 * zlen fm -> zlen idx < 2 ^ 32 ->
  let res := Some (idx, fm) in
  snd (q_triangulation e c res empty_caches d0) = full_caches idx fm /\
  agrees (fun d => fst (q_triangulation e c res empty_caches d)) 4 idx /\
  (forall res', agrees (fun d => fst (q_triangulation e c res' (full_caches idx fm) d)) 4 idx /\
                agrees (fun d => fst (q_triangulation_map e c res' (full_caches idx fm) d)) 4 fm) /\
  forall res' d, snd (q_triangulation e c res' (full_caches idx fm) d) = full_caches idx fm /\
                 snd (q_triangulation_map e c res' (full_caches idx fm) d) = full_caches idx fm.
Proof.
  intros e c idx fm d0 Hf Fl L3 Ls res. pose proof (maps_on c Hf) as M. pose proof (zlen_nonneg idx). pose proof (zlen_nonneg fm).
  assert (Wi : wrap32 (zlen idx) = zlen idx) by (apply Z.mod_small; lia). assert (Wf : wrap32 (zlen fm) = zlen fm) by (apply Z.mod_small; lia).
  assert (Ei : forall l : list Z, firstn (Z.to_nat (4 * zlen l / 4)) l = l) by (intros l; apply firstn_all2; replace (4 * zlen l / 4) with (zlen l) by (Z.to_euclidean_division_equations; lia); unfold zlen; lia).
  assert (Di : 4 * zlen idx / 4 = 3 * zlen fm) by (Z.to_euclidean_division_equations; lia).
  assert (D1 : (4 * zlen idx) mod 4 = 0) by (Z.to_euclidean_division_equations; lia). assert (D2 : (3 * zlen fm) mod 3 = 0) by (Z.to_euclidean_division_equations; lia).
  assert (D3 : (4 * zlen fm) mod 4 = 0) by (Z.to_euclidean_division_equations; lia).
  assert (A : forall r t, (t = empty_caches /\ r = Some (idx, fm)) \/ t = full_caches idx fm -> agrees (fun d => fst (q_triangulation e c r t d)) 4 idx).
  { intros r t Ht. assert (Et : (match t_idx t with Some _ => Some t | None => do r <- r; Some (TC (Some (fst r)) (if true then Some (snd r) else t_map t)) end) = Some (full_caches idx fm)) by (destruct Ht as [[-> ->]| ->]; reflexivity).
    split.
    - unfold q_triangulation, tri_detail. rewrite M, Et. cbn [t_idx t_map full_caches]. rewrite Wi. cbn [negb map_data t_map orb ptr_eqb seen_reply fst]. change (map_data (full_caches idx fm)) with PMapCache. cbn [negb fst seen_reply]. f_equal. lia.
    - unfold q_triangulation, tri_detail. rewrite M, Et. cbn [t_idx t_map full_caches]. rewrite Wi. change (map_data (full_caches idx fm)) with PMapCache. cbn [negb t_map orb ptr_eqb]. rewrite Fl.
      replace (zlen idx * 4) with (4 * zlen idx) by lia. rewrite Z.ltb_irrefl, D1, Di, D2, <- Di. cbn [Z.eqb negb orb seen_reply fst]. rewrite Ei. apply fills_concat. cbn. apply app_nil_r. }
  assert (M' : (wrap32 (zlen (c_fmap c)) =? 0) = false) by (apply negb_true_iff; exact M).
  split; [|split; [apply A; auto|split]].
  - destruct d0 as [|b]; unfold q_triangulation, tri_detail; rewrite M; cbn [t_idx t_map empty_caches res obind fst snd negb orb map_data ptr_eqb]; [reflexivity|].
    destruct (_ <? _); [reflexivity|]. destruct (_ || _); [reflexivity|]. rewrite Fl. reflexivity.
  - intros res'. split; [apply A; auto|]. split; unfold q_triangulation_map; rewrite M'; cbn [t_map full_caches]; rewrite Wf.
    + cbn [fst]. f_equal. lia.
    + replace (zlen fm * 4) with (4 * zlen fm) by lia. rewrite Z.ltb_irrefl, D3. cbn [Z.eqb negb fst]. rewrite Ei. apply fills_concat. cbn. apply app_nil_r.
  - intros res' d. split.
    + destruct d as [|b]; unfold q_triangulation, tri_detail; rewrite M; cbn [t_idx t_map full_caches negb orb map_data ptr_eqb]; [reflexivity|].
      destruct (_ <? _); [reflexivity|]. destruct (_ || _); [reflexivity|]. rewrite Fl. reflexivity.
    + unfold q_triangulation_map. rewrite M'. cbn [t_map full_caches]. destruct d as [|b]; [reflexivity|]. destruct (_ <? _); [reflexivity|]. destruct (b mod 4 =? 0); reflexivity.
Qed.

(** Querying the map first crashes: the pointer that should tell the inner call apart is null. *)
Theorem C42_map_first_refuted : forall e c idx fm d, 0 < zlen (c_fmap c) < 2 ^ 32 ->
  fst (q_triangulation_map e c (Some (idx, fm)) empty_caches d) = Crash.
Proof.
  intros e c idx fm d H. pose proof (maps_on c H) as M. assert (M' : (wrap32 (zlen (c_fmap c)) =? 0) = false) by (apply negb_true_iff; exact M).
  unfold q_triangulation_map, tri_detail. rewrite M'. reflexivity.
Qed.

(** With the reversed winding option the array is delivered back to front: not only the winding of
    each triangle but the order of the triangles is reversed, and the map is not. *)
Theorem C42_reversed_array : forall e c idx fm, e_flip e = true -> 0 < zlen (c_fmap c) < 2 ^ 32 -> zlen idx = 3 * zlen fm -> zlen idx < 2 ^ 32 ->
  fills (fst (q_triangulation e c (Some (idx, fm)) empty_caches (Buffer (4 * zlen idx)))) 4 (rev idx) /\
  agrees (fun d => fst (q_triangulation_map e c None (full_caches idx fm) d)) 4 fm.
Proof.
  intros e c idx fm Fl Hf L3 Ls. pose proof (maps_on c Hf) as M. pose proof (zlen_nonneg idx) as N. split; [|exact (proj2 (proj1 (proj2 (proj2 (C42_queries_partial (Env (e_pool e) false (e_float e)) c idx fm Null Hf eq_refl L3 Ls))) None))].
  assert (Wi : wrap32 (zlen idx) = zlen idx) by (apply Z.mod_small; lia).
  unfold q_triangulation, tri_detail. rewrite M. cbn [t_idx t_map empty_caches obind fst snd negb orb map_data ptr_eqb]. rewrite Wi.
  replace (zlen idx * 4) with (4 * zlen idx) by lia. rewrite Z.ltb_irrefl. replace (4 * zlen idx / 4) with (3 * zlen fm) by (Z.to_euclidean_division_equations; lia).
  replace ((4 * zlen idx) mod 4) with 0 by (Z.to_euclidean_division_equations; lia). replace ((3 * zlen fm) mod 3) with 0 by (Z.to_euclidean_division_equations; lia).
  cbn [Z.eqb negb orb]. rewrite Fl. cbn [seen_reply fst]. eexists. split; [reflexivity|]. intros order m o I. apply interleaving_perm in I. cbn in I. rewrite app_nil_r in I.
  assert (Pm : Permutation (store_all 0 (rev idx)) order).
  { rewrite <- I. rewrite store_all_zrange. assert (Lr : zlen (rev idx) = zlen idx) by (unfold zlen; rewrite rev_length; reflexivity). rewrite Lr.
    apply Permutation_sym. apply NoDup_Permutation.
    - apply FinFun.Injective_map_NoDup; [|apply NoDup_zrange]. intros x y K. assert (zlen idx - 1 - x = zlen idx - 1 - y) by congruence. lia.
    - apply FinFun.Injective_map_NoDup; [|apply NoDup_zrange]. intros x y K. assert (0 + x = 0 + y) by congruence. lia.
    - assert (G : forall i, 0 <= i < zlen idx -> nth (Z.to_nat i) (rev idx) 0 = nth (Z.to_nat (zlen idx - 1 - i)) idx 0).
      { intros i Hi. rewrite rev_nth by (unfold zlen in Hi; lia). f_equal. unfold zlen in *. lia. }
      intros [a v]. rewrite !in_map_iff. split; intros (i & E & Hi); apply In_zrange in Hi; exists (zlen idx - 1 - i); (split; [|apply In_zrange; lia]).
      + rewrite <- E, G by lia. f_equal. do 2 f_equal. lia.
      + rewrite <- E. rewrite (G i Hi). f_equal. lia. }
  destruct (vget (rev idx) o) as [x|] eqn:V.
  - assert (R : 0 <= o < zlen (rev idx)) by (eapply vget_Some_range; exact V). pose proof (run_content order (rev idx) m o Pm R) as Q. congruence.
  - apply run_other. intros H. apply (Permutation_in _ (Permutation_map fst (Permutation_sym Pm))) in H.
    apply in_map_iff in H. destruct H as ([o' v] & E' & H). cbn in E'. subst o'. apply In_store_all in H. destruct H as (i & H & Ei). replace i with o in H by lia. congruence.
Qed.

(** ** Sizes of buffers (C37) *)

Theorem C37_triangulation_partial : forall e c idx fm bytes, 0 < zlen (c_fmap c) < 2 ^ 32 -> e_flip e = false -> zlen idx < 2 ^ 32 -> zlen fm < 2 ^ 32 -> 0 <= bytes ->
  inside (fst (q_triangulation e c (Some (idx, fm)) empty_caches (Buffer bytes))) bytes /\
  inside (fst (q_triangulation_map e c None (full_caches idx fm) (Buffer bytes))) bytes.
Proof.
  intros e c idx fm bytes Hf Fl Li Lm Hb. pose proof (maps_on c Hf) as M. pose proof (zlen_nonneg idx) as N. pose proof (zlen_nonneg fm) as N'. assert (M' : (wrap32 (zlen (c_fmap c)) =? 0) = false) by (apply negb_true_iff; exact M).
  assert (G : forall l : list Z, forall o v, bytes mod 4 = 0 -> In (o, v) (store_all 0 (firstn (Z.to_nat (bytes / 4)) l)) -> 0 <= o /\ (o + 1) * 4 <= bytes).
  { intros l o v Hm H. apply In_store_all in H. destruct H as (i & V & ->). apply vget_Some_range in V. unfold zlen in V. rewrite firstn_length in V.
    assert (Db : bytes = 4 * (bytes / 4)) by (pose proof (Z.div_mod bytes 4); lia). lia. }
  split.
  - unfold q_triangulation, tri_detail. rewrite M. cbn [t_idx t_map empty_caches obind fst snd negb orb map_data ptr_eqb]. destruct (_ <? _); [exact I|].
    destruct (Z.eqb_spec (bytes mod 4) 0) as [K|K]; cbn [negb orb]; [|exact I]. destruct ((bytes / 4) mod 3 =? 0); cbn [negb]; [|exact I]. rewrite Fl. cbn [seen_reply fst]. intros o v H. cbn [concat] in H. rewrite app_nil_r in H. apply (G idx o v K H).
  - unfold q_triangulation_map. rewrite M'. cbn [t_map full_caches]. destruct (_ <? _); [exact I|]. destruct (Z.eqb_spec (bytes mod 4) 0) as [K|K]; cbn [negb fst]; [|exact I].
    intros o v H. cbn [concat] in H. rewrite app_nil_r in H. apply (G fm o v K H).
Qed.

(** Reversed winding: a shorter buffer, even an empty one, is overrun. *)
Theorem C37_triangulation_refuted : forall e c idx fm bytes, 0 < zlen (c_fmap c) < 2 ^ 32 -> e_flip e = true -> zlen idx < 2 ^ 32 ->
  0 <= bytes < 4 * zlen idx -> bytes mod 12 = 0 ->
  overruns (fst (q_triangulation e c (Some (idx, fm)) empty_caches (Buffer bytes))) bytes.
Proof.
  intros e c idx fm bytes Hf Fl Ls Hb Hm. pose proof (maps_on c Hf) as M. pose proof (zlen_nonneg idx) as N.
  assert (Wi : wrap32 (zlen idx) = zlen idx) by (apply Z.mod_small; lia).
  unfold q_triangulation, tri_detail. rewrite M. cbn [t_idx t_map empty_caches obind fst snd negb orb map_data ptr_eqb]. rewrite Wi. destruct (Z.ltb_spec (zlen idx * 4) bytes); [lia|].
  replace (bytes mod 4) with 0 by (Z.to_euclidean_division_equations; lia). replace ((bytes / 4) mod 3) with 0 by (Z.to_euclidean_division_equations; lia). cbn [Z.eqb negb orb]. rewrite Fl. cbn [seen_reply fst].
  eexists _, _, (zlen idx - 1 - 0), (nth (Z.to_nat 0) idx 0). split; [reflexivity|]. split; [|lia]. cbn [concat]. rewrite app_nil_r. apply in_map_iff. exists 0. split; [reflexivity|]. apply In_zrange. lia.
Qed.

(** ** Instances: the fan of five triangles *)

Definition fan5_cc : cc := CC TYPE_FRAGMENT fan5 [] [] [0; 1; 2; 3; 4] (0, 0, 0) 0 0 0 0 [] [] [] [] 7 7 5 5 None None.
(** no face needs a triangulation *)
Definition no_tri (f : Z) : option (list Z) := Some [].

Lemma fan5_rows f vs : get_vertices_around_face fan5 f = Some vs -> 0 <= f < 5.
Proof.
  intros H. unfold get_vertices_around_face, get_halfedges_around_face in H. destruct (vget (faces fan5) f) as [hs|] eqn:E; [|discriminate]. apply vget_Some_range in E. exact E.
Qed.
Lemma fan5_cases f vs : get_vertices_around_face fan5 f = Some vs -> (f = 0 /\ vs = [1; 2; 0]) \/ (f = 1 /\ vs = [2; 3; 0]) \/ (f = 2 /\ vs = [3; 4; 0]) \/ (f = 3 /\ vs = [4; 5; 0]) \/ (f = 4 /\ vs = [5; 6; 0]).
Proof.
  intros H. pose proof (fan5_rows f vs H) as R. assert (D : f = 0 \/ f = 1 \/ f = 2 \/ f = 3 \/ f = 4) by lia.
  destruct D as [->|[->|[->|[->| ->]]]]; vm_compute in H; injection H as <-; tauto.
Qed.

Example C42_instance : component_mesh (c_mesh fan5_cc) /\ triangulates (c_mesh fan5_cc) no_tri /\
  zlen (c_fmap fan5_cc) = zlen (faces (c_mesh fan5_cc)) /\ 0 < zlen (c_fmap fan5_cc) < 2 ^ 32 /\ tri_total fan5_cc no_tri < 2 ^ 32 /\
  forall e, pool_ok e -> tri_result e fan5_cc no_tri true [1; 2; 0; 2; 3; 0; 3; 4; 0; 4; 5; 0; 5; 6; 0] [0; 1; 2; 3; 4].
Proof.
  assert (T : triangulates (c_mesh fan5_cc) no_tri).
  { intros f vs H L. exfalso. apply L. apply fan5_cases in H. intuition (subst; reflexivity). }
  assert (Tt : tri_total fan5_cc no_tri < 2 ^ 32) by (vm_compute; reflexivity).
  split; [exact fan5_mesh|]. split; [exact T|]. split; [reflexivity|]. split; [vm_compute; auto|]. split; [exact Tt|].
  intros e P. apply (result_iff e fan5_cc no_tri true fan5_mesh P T (fun _ => eq_refl) Tt).
  destruct (blocks_exist e fan5_cc true fan5_mesh P (fun _ => eq_refl)) as (bs & Eb & Ce). exists bs, (zrange (zlen bs)). split; [exact Eb|]. split; [reflexivity|].
  assert (Ef : faces_in bs (zrange (zlen bs)) = zrange 5). { unfold faces_in. rewrite (map_blk true elements bs). exact Ce. }
  rewrite Ef. vm_compute. auto.
Qed.

(** Reversed winding: the delivered array and map do not line up. *)
Theorem C42_reversed_refuted : exists e c tri idx fm, component_mesh (c_mesh c) /\ pool_ok e /\ triangulates (c_mesh c) tri /\
  zlen (c_fmap c) = zlen (faces (c_mesh c)) /\ tri_total c tri < 2 ^ 32 /\ e_flip e = true /\ tri_result e c tri true idx fm /\
  fills (fst (q_triangulation e c (Some (idx, fm)) empty_caches (Buffer (4 * zlen idx)))) 4 (rev idx) /\
  agrees (fun d => fst (q_triangulation_map e c None (full_caches idx fm) d)) 4 fm /\
  ~ lines_up c (rev idx) fm.
Proof.
  destruct C42_instance as (C & T & L & L' & Tt & R). set (e := Env 0 true (fun x => x)). assert (P : pool_ok e) by (unfold pool_ok; cbn; lia).
  exists e, fan5_cc, no_tri, [1; 2; 0; 2; 3; 0; 3; 4; 0; 4; 5; 0; 5; 6; 0], [0; 1; 2; 3; 4].
  split; [exact C|]. split; [exact P|]. split; [exact T|]. split; [exact L|]. split; [exact Tt|]. split; [reflexivity|]. split; [apply R; exact P|].
  destruct (C42_reversed_array e fan5_cc [1; 2; 0; 2; 3; 0; 3; 4; 0; 4; 5; 0; 5; 6; 0] [0; 1; 2; 3; 4]) as [A B]; [reflexivity|exact L'|reflexivity|vm_compute; reflexivity|].
  split; [exact A|]. split; [exact B|].
  intros [_ H]. destruct (H 0) as (f & vs & u & E & V & (k & K & Eu) & J); [vm_compute; split; congruence|]. cbn in V. injection V as <-.
  destruct (J 1) as (v & Hv & Iv); [lia|]. vm_compute in Hv. injection Hv as <-.
  apply fan5_cases in E. destruct E as [[-> ->]|[[-> ->]|[[-> ->]|[[-> ->]|[-> ->]]]]]; vm_compute in K; injection K as <-; vm_compute in Eu; try discriminate. cbn in Iv. lia.
Qed.

(** ** Instance with a face that is not a triangle *)

Definition quad_points : list point := [(0, 0, 0); (1, 0, 0); (1, 1, 0); (0, 1, 0)].
Definition quad_start : hmesh := Eval vm_compute in match add_vertices quad_points with Some m0 => m0 | None => hempty end.
Definition quad_mesh : hmesh := Eval vm_compute in
  match insert_all quad_start [[0; 1; 2; 3]] with CAccept m => m | _ => hempty end.
Lemma quad_component : component_mesh quad_mesh.
Proof.
  destruct (built_vertices quad_points) as (m0 & E0 & B0).
  assert (G : forall f, In f [[0; 1; 2; 3]] -> good_face (zlen quad_points) f).
  { intros f [<-|[]]. constructor; [cbn; lia|repeat constructor; cbn [In]; lia|]. intros v Hv. change (zlen quad_points) with 4. cbn [In] in Hv. lia. }
  pose proof (insert_all_spec quad_points [[0; 1; 2; 3]] [] m0 B0 (NoDup_nil _) G) as S. cbn [app] in S.
  assert (K : m0 = quad_start) by (assert (Some m0 = Some quad_start) by (rewrite <- E0; vm_compute; reflexivity); congruence). rewrite K in *.
  assert (E : insert_all quad_start [[0; 1; 2; 3]] = CAccept quad_mesh) by (vm_compute; reflexivity). rewrite E in S. destruct S as [_ B].
  constructor; [exact (b_hist _ _ _ B)|reflexivity|reflexivity|split; vm_compute; discriminate|vm_compute; auto].
Qed.
(** its two triangles, walked from the first one; the tracker holds the four vertices *)
Definition quad_tris : list ctri := [CT [0; 1; 2] [1]; CT [0; 2; 3] [0]].
Definition quad_tri (f : Z) : option (list Z) := emit 5 quad_tris (face_to_cdt_vmap 4 false) [0; 1; 2; 3] quad_start [0] [] [].
Definition quad_cc : cc := CC TYPE_FRAGMENT quad_mesh [] [] [0] (0, 0, 0) 0 0 0 0 [] [] [] [] 4 4 1 1 None None.

Example C42_instance_quad : component_mesh (c_mesh quad_cc) /\ triangulates (c_mesh quad_cc) quad_tri /\ quad_tri 0 = Some [0; 1; 2; 0; 2; 3] /\
  forall e, pool_ok e -> exists idx, tri_result e quad_cc quad_tri true idx [0; 0] /\ zlen idx = 6 /\ lines_up quad_cc idx [0; 0].
Proof.
  assert (Q : quad_tri 0 = Some [0; 1; 2; 0; 2; 3]) by (vm_compute; reflexivity).
  assert (T : triangulates (c_mesh quad_cc) quad_tri).
  { intros f vs H L. assert (R : 0 <= f < 1). { unfold get_vertices_around_face, get_halfedges_around_face in H. change (c_mesh quad_cc) with quad_mesh in H. destruct (vget (faces quad_mesh) f) as [hs|] eqn:E; [|discriminate]. apply vget_Some_range in E. exact E. }
    assert (f = 0) by lia. subst f. vm_compute in H. injection H as <-. exists [0; 1; 2; 0; 2; 3], [[0; 1; 2]; [0; 2; 3]]. split; [exact Q|]. split; [split; [reflexivity|]|].
    - intros t [<-|[<-|[]]]; reflexivity.
    - intros i Hi. change (zlen [1; 2; 3; 0]) with 4. cbn [In] in Hi. lia. }
  assert (Tt : tri_total quad_cc quad_tri < 2 ^ 32) by (vm_compute; reflexivity).
  split; [exact quad_component|]. split; [exact T|]. split; [exact Q|]. intros e P.
  assert (Rs : exists idx, tri_result e quad_cc quad_tri true idx [0; 0] /\ zlen idx = 6).
  { destruct (blocks_exist e quad_cc true quad_component P (fun _ => eq_refl)) as (bs & Eb & Ce). assert (Ef : faces_in bs (zrange (zlen bs)) = zrange 1) by (unfold faces_in; rewrite (map_blk true elements bs); exact Ce).
    eexists. split; [apply (result_iff e quad_cc quad_tri true quad_component P T (fun _ => eq_refl) Tt); exists bs, (zrange (zlen bs)); split; [exact Eb|]; split; [reflexivity|]; rewrite Ef; split; [reflexivity|vm_compute; reflexivity]|].
    vm_compute. reflexivity. }
  destruct Rs as (idx & R & L). exists idx. split; [exact R|]. split; [exact L|].
  eapply C42_lines_up_partial; [exact quad_component|exact P|exact T|reflexivity|exact Tt|exact R].
Qed.

Print Assumptions C42_faces. Print Assumptions C42_lines_up_partial. Print Assumptions C42_queries_partial. Print Assumptions C42_map_first_refuted.
Print Assumptions C42_reversed_refuted. Print Assumptions C37_triangulation_partial. Print Assumptions C37_triangulation_refuted. Print Assumptions triangulate_face_triples. Print Assumptions C42_instance_quad.
