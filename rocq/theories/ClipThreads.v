(** C69: the faces are shared out to several threads; the polygons and the tables do not depend on how. *)
From Coq Require Import List Arith Bool Lia.
From Verif Require Import CutModel ClipModel ClipProofs ClipProps ClipCases.
Import ListNotations.

Section C69.
(** the meshes and the tables, see ClipModel *)
Variable seg : nat -> nat * nat.
Variables (psrc : nat -> nat) (pface : nat -> option nat) (ps_halfedge : nat -> nat -> option nat) (registry : list (nat * nat)) (cnt : nat) (pieces : list (nat * list nat)).
Variable partition : (nat -> bool) -> list nat -> list nat.
Variables (around : nat -> list nat) (ptgt : nat -> nat) (unchanged : list (nat * nat)) (edge_list : list (nat * list nat)) (sm_face_count : nat).
Notation trace_face := (trace_face seg psrc pface ps_halfedge registry cnt pieces partition around ptgt unchanged edge_list sm_face_count).
Notation trace_block := (trace_block seg psrc pface ps_halfedge registry cnt pieces partition around ptgt unchanged edge_list sm_face_count).
Notation trace_blocks := (trace_blocks seg psrc pface ps_halfedge registry cnt pieces partition around ptgt unchanged edge_list sm_face_count).

(** what becomes of one face: clipped if there are cuts on it, otherwise as it is *)
Definition cut_face (f : nat) : bool := match lookup edge_list f with Some _ => true | None => false end.
Definition children (f : nat) : option (list (list nat)) :=
  match lookup edge_list f with
  | Some edges => clip seg psrc pface ps_halfedge registry cnt pieces partition f edges
  | None => option_map (fun p => [p]) (retrace seg psrc around ptgt unchanged f)
  end.
Definition source_face (f : nat) : bool := negb (ps_is_cutmesh_face sm_face_count f).
(** the face of each polygon, when the face f_i is divided into the polygons cs_i *)
Fixpoint owners (fs : list nat) (css : list (list (list nat))) : list nat :=
  match fs, css with f :: fs', cs :: css' => map (fun _ => f) cs ++ owners fs' css' | _, _ => [] end.

Definition table (n : nat) (os : list nat) : list (nat * nat) := combine (seq n (length os)) os.
Definition adjacent (which : nat -> bool) (t : list (nat * nat)) : list nat := map fst (filter (fun p => which (snd p) && cut_face (snd p)) t).
Definition result (fs : list nat) (css : list (list (list nat))) : traced :=
  {| polygons := concat css; sm_adjacent := adjacent source_face (table 0 (owners fs css)); cm_adjacent := adjacent (fun f => negb (source_face f)) (table 0 (owners fs css));
     sm_count := length (filter source_face (owners fs css)); to_face := table 0 (owners fs css) |}.

Lemma owners_app fs fs' css css' : length fs = length css -> owners (fs ++ fs') (css ++ css') = owners fs css ++ owners fs' css'.
Proof. revert css. induction fs as [|f fs IH]; intros [|cs css] L; try discriminate; [reflexivity|]. cbn in *. rewrite IH, app_assoc; [reflexivity|lia]. Qed.
Lemma owners_length fs css : length fs = length css -> length (owners fs css) = length (concat css).
Proof. revert css. induction fs as [|f fs IH]; intros [|cs css] L; try discriminate; [reflexivity|]. cbn in *. rewrite !app_length, map_length, IH; [reflexivity|lia]. Qed.
Lemma combine_app2 {A B} (a a' : list A) (b b' : list B) : length a = length b -> combine (a ++ a') (b ++ b') = combine a b ++ combine a' b'.
Proof. revert b. induction a as [|x a IH]; intros [|y b] L; try discriminate; [reflexivity|]. cbn in *. rewrite IH; [reflexivity|lia]. Qed.
Lemma table_app n os os' : table n (os ++ os') = table n os ++ table (n + length os) os'.
Proof. unfold table. rewrite app_length, seq_app, combine_app2; [reflexivity|apply seq_length]. Qed.
Lemma table_keys n os : map fst (table n os) = seq n (length os).
Proof. unfold table. generalize n. induction os as [|o os IH]; intros m; [reflexivity|]. cbn. f_equal. apply IH. Qed.
Lemma table_vals n os : map snd (table n os) = os.
Proof. unfold table. generalize n. induction os as [|o os IH]; intros m; [reflexivity|]. cbn. f_equal. apply IH. Qed.
Lemma table_shift n b os : map (fun p => (fst p + b, snd p)) (table n os) = table (n + b) os.
Proof. unfold table. revert n. induction os as [|o os IH]; intros n; [reflexivity|]. cbn. f_equal. apply (IH (S n)). Qed.
Lemma set_fresh (m : list (nat * nat)) k a : ~ In k (map fst m) -> set m k a = m ++ [(k, a)].
Proof. induction m as [|(k' & a') m IH]; intros N; [reflexivity|]. cbn in *. destruct (Nat.eqb_spec k k'); [exfalso; apply N; left; auto|]. rewrite IH; [reflexivity|tauto]. Qed.
Lemma sets_fresh (l m : list (nat * nat)) : NoDup (map fst l) -> (forall k, In k (map fst l) -> ~ In k (map fst m)) -> fold_left (fun m p => set m (fst p) (snd p)) l m = m ++ l.
Proof.
  revert m. induction l as [|(k & a) l IH]; intros m N F; [cbn; rewrite app_nil_r; reflexivity|]. cbn [fold_left fst snd map] in *. inversion_clear N as [|? ? Nk N']. rewrite set_fresh by (apply F; left; reflexivity). rewrite IH.
  - rewrite <- app_assoc. reflexivity.
  - exact N'.
  - intros j Ij. rewrite map_app, in_app_iff. cbn. intros [K|[<-|[]]]; [apply (F j); [right; exact Ij|exact K]|contradiction].
Qed.
Lemma sets_table os n os' : n = length os -> fold_left (fun m p => set m (fst p) (snd p)) (table n os') (table 0 os) = table 0 (os ++ os').
Proof.
  intros ->. rewrite sets_fresh; [rewrite table_app; reflexivity|rewrite table_keys; apply seq_NoDup|]. intros k I K. rewrite table_keys, in_seq in *. lia.
Qed.
Lemma set_same f base (cs : list (list nat)) m : fold_left (fun m i => set m i f) (seq base (length cs)) m = fold_left (fun m p => set m (fst p) (snd p)) (table base (map (fun _ => f) cs)) m.
Proof. unfold table. rewrite map_length. revert base m. induction cs as [|c cs IH]; intros base m; [reflexivity|]. cbn. apply IH. Qed.
Lemma adjacent_app w t t' : adjacent w (t ++ t') = adjacent w t ++ adjacent w t'.
Proof. unfold adjacent. rewrite filter_app, map_app. reflexivity. Qed.
Lemma adjacent_one w n f (cs : list (list nat)) : adjacent w (table n (map (fun _ => f) cs)) = if w f && cut_face f then seq n (length cs) else [].
Proof.
  unfold adjacent, table. rewrite map_length. revert n. induction cs as [|c cs IH]; intros n; [destruct (w f && cut_face f); reflexivity|]. cbn [map length seq combine filter snd]. destruct (w f && cut_face f) eqn:E; cbn [map fst]; rewrite IH; reflexivity.
Qed.
Lemma filter_one (w : nat -> bool) f (cs : list (list nat)) : length (filter w (map (fun _ => f) cs)) = if w f then length cs else 0.
Proof. induction cs as [|c cs IH]; cbn; [destruct (w f); reflexivity|]. destruct (w f) eqn:E; cbn; rewrite IH; reflexivity. Qed.

Lemma face_step fs css f : length fs = length css -> trace_face (result fs css) f = match children f with Some cs => Some (result (fs ++ [f]) (css ++ [cs])) | None => None end.
Proof.
  intros L. pose proof (owners_length fs css L) as OL. unfold ClipModel.trace_face, children. cbn [polygons result].
  assert (E : forall cs new, new = (if cut_face f then seq (length (concat css)) (length cs) else []) ->
    {| polygons := concat css ++ cs; sm_adjacent := if ps_is_cutmesh_face sm_face_count f then sm_adjacent (result fs css) else sm_adjacent (result fs css) ++ new;
       cm_adjacent := if ps_is_cutmesh_face sm_face_count f then cm_adjacent (result fs css) ++ new else cm_adjacent (result fs css);
       sm_count := if ps_is_cutmesh_face sm_face_count f then sm_count (result fs css) else sm_count (result fs css) + length cs;
       to_face := fold_left (fun m i => set m i f) (seq (length (concat css)) (length cs)) (to_face (result fs css)) |} = result (fs ++ [f]) (css ++ [cs])).
  { intros cs new ->. unfold result. cbn [sm_adjacent cm_adjacent sm_count to_face]. rewrite (owners_app fs [f] css [cs] L). cbn [owners]. rewrite app_nil_r, concat_app. cbn [concat]. rewrite app_nil_r.
    rewrite table_app, !adjacent_app, !adjacent_one, filter_app, app_length, filter_one, set_same, sets_table by (symmetry; exact OL). rewrite table_app. rewrite OL. cbn [plus].
    assert (SF : source_face f = negb (ps_is_cutmesh_face sm_face_count f)) by reflexivity. rewrite SF. destruct (ps_is_cutmesh_face sm_face_count f), (cut_face f); cbn [negb andb]; rewrite ?app_nil_r, ?Nat.add_0_r; reflexivity. }
  unfold cut_face in E. destruct (lookup edge_list f) as [edges|].
  - destruct (clip _ _ _ _ _ _ _ _ f edges) as [cs|]; [|reflexivity]. cbn [CutModel.bind]. f_equal. apply E. reflexivity.
  - destruct (retrace _ _ _ _ _ f) as [p|]; [|reflexivity]. cbn [CutModel.bind option_map]. f_equal. apply (E [p] []). reflexivity.
Qed.
Lemma merge_step fs css fs' css' : length fs = length css -> merge (result fs css) (result fs' css') = result (fs ++ fs') (css ++ css').
Proof.
  intros L. pose proof (owners_length fs css L) as OL. unfold merge, result. cbn [polygons sm_adjacent cm_adjacent sm_count to_face]. rewrite (owners_app fs fs' css css' L), concat_app, table_app, !adjacent_app, filter_app, app_length, OL. cbn [plus].
  assert (SH : forall w, map (fun i => i + length (concat css)) (adjacent w (table 0 (owners fs' css'))) = adjacent w (table (length (concat css)) (owners fs' css'))).
  { intros w. rewrite <- (table_shift 0 (length (concat css))). unfold adjacent. generalize (table 0 (owners fs' css')). induction l as [|p l IH]; [reflexivity|]. cbn [map filter snd fst]. destruct (w (snd p) && cut_face (snd p)); cbn [map fst]; rewrite IH; reflexivity. }
  rewrite !SH. f_equal.
  assert (EF : forall (l m : list (nat * nat)), fold_left (fun m p => set m (fst p + length (concat css)) (snd p)) l m = fold_left (fun m p => set m (fst p) (snd p)) (map (fun p => (fst p + length (concat css), snd p)) l) m).
  { induction l as [|p l IH]; intros m; [reflexivity|]. cbn [map fold_left fst snd]. apply IH. }
  rewrite EF, table_shift. cbn [plus]. rewrite sets_table by (symmetry; exact OL). rewrite table_app, OL. reflexivity.
Qed.
Definition outcome (fs : list nat) (css : list (list (list nat))) : Prop := Forall2 (fun f cs => children f = Some cs) fs css.
Lemma outcome_length fs css : outcome fs css -> length fs = length css.
Proof. induction 1; cbn; lia. Qed.
Lemma block_none fs : fold_left (fun r f => let* r := r in trace_face r f) fs None = None.
Proof. induction fs; [reflexivity|assumption]. Qed.
Lemma block_from gs : forall fs css r, length fs = length css -> fold_left (fun r f => let* r := r in trace_face r f) gs (Some (result fs css)) = Some r <-> exists dss, outcome gs dss /\ r = result (fs ++ gs) (css ++ dss).
Proof.
  induction gs as [|g gs IH]; intros fs css r L.
  - cbn. split; [intros E; injection E as <-; exists []; rewrite !app_nil_r; split; [constructor|reflexivity]|]. intros (dss & O & ->). inversion O. rewrite !app_nil_r. reflexivity.
  - cbn [fold_left CutModel.bind]. rewrite (face_step fs css g L). destruct (children g) as [cs|] eqn:EC.
    + rewrite IH by (rewrite !app_length; cbn; lia). split; intros (dss & O & ->).
      * exists (cs :: dss). split; [constructor; assumption|]. rewrite <- !app_assoc. reflexivity.
      * inversion O as [|? cs' ? dss' E O' ]; subst. assert (cs' = cs) by congruence. subst cs'. exists dss'. split; [exact O'|]. rewrite <- !app_assoc. reflexivity.
    + rewrite block_none. split; [discriminate|]. intros (dss & O & _). inversion O; congruence.
Qed.
Lemma empty_result : no_polygons = result [] [].
Proof. reflexivity. Qed.
Lemma block_spec gs r : trace_block gs = Some r <-> exists dss, outcome gs dss /\ r = result gs dss.
Proof. unfold ClipModel.trace_block. rewrite empty_result. apply (block_from gs [] []). reflexivity. Qed.
Lemma blocks_from blocks : forall fs css r, length fs = length css -> trace_blocks blocks (result fs css) = Some r <-> exists dss, outcome (concat blocks) dss /\ r = result (fs ++ concat blocks) (css ++ dss).
Proof.
  induction blocks as [|b bs IH]; intros fs css r L.
  - cbn. split; [intros E; injection E as <-; exists []; rewrite !app_nil_r; split; [constructor|reflexivity]|]. intros (dss & O & ->). inversion O. rewrite !app_nil_r. reflexivity.
  - cbn [ClipModel.trace_blocks concat]. destruct (trace_block b) as [l|] eqn:EB; cbn [CutModel.bind].
    + apply block_spec in EB. destruct EB as (ds & OB & ->). rewrite (merge_step fs css b ds L). pose proof (outcome_length _ _ OB) as LB. rewrite IH by (rewrite !app_length; lia). split; intros (dss & O & ->).
      * exists (ds ++ dss). split; [apply Forall2_app; assumption|]. rewrite !app_assoc. reflexivity.
      * apply Forall2_app_inv_l in O. destruct O as (ds' & dss' & O1 & O2 & ->). exists dss'. split; [exact O2|]. assert (ds' = ds). { clear - OB O1. revert ds' O1. unfold outcome in OB. induction OB as [|f cs fs css E O IH]; intros ds' O1; inversion O1; subst; [reflexivity|]. f_equal; [congruence|apply IH; assumption]. } subst ds'. rewrite !app_assoc. reflexivity.
    + split; [discriminate|]. intros (dss & O & _). apply Forall2_app_inv_l in O. destruct O as (ds & dss' & O1 & _ & _). assert (K : trace_block b = Some (result b ds)) by (apply block_spec; exists ds; auto). congruence.
Qed.

(** The faces are divided into blocks in any way: the polygons are those of the faces, in the order of the faces; the table names the face of every polygon; the polygons of the clipped faces
    are listed, in order and by mesh; the polygons of the source mesh are counted.  And there is a result exactly when there is one for every face. *)
Theorem C69_threads blocks r :
  trace_blocks blocks no_polygons = Some r <->
  exists css, Forall2 (fun f cs => children f = Some cs) (concat blocks) css /\
    polygons r = concat css /\ map fst (to_face r) = seq 0 (length (concat css)) /\ map snd (to_face r) = owners (concat blocks) css /\
    sm_adjacent r = map fst (filter (fun p => source_face (snd p) && cut_face (snd p)) (to_face r)) /\
    cm_adjacent r = map fst (filter (fun p => negb (source_face (snd p)) && cut_face (snd p)) (to_face r)) /\
    sm_count r = length (filter source_face (map snd (to_face r))).
Proof.
  rewrite empty_result, (blocks_from blocks [] [] r eq_refl). cbn [app]. split; intros (css & O & H); exists css; (split; [exact O|]); pose proof (owners_length _ _ (outcome_length _ _ O)) as OL.
  - subst r. cbn [polygons to_face sm_adjacent cm_adjacent sm_count result]. rewrite table_keys, table_vals, OL. repeat (split; [reflexivity|]). reflexivity.
  - destruct H as (H1 & H2 & H3 & H4 & H5 & H6). assert (HT : to_face r = table 0 (owners (concat blocks) css)).
    { unfold table. rewrite OL, <- H2, <- H3. clear. induction (to_face r) as [|(a & c) l IH]; [reflexivity|]. cbn. f_equal. exact IH. }
    destruct r as [p1 p2 p3 p4 p5]. cbn [polygons to_face sm_adjacent cm_adjacent sm_count] in *. unfold result. rewrite HT, table_vals in *. subst. reflexivity.
Qed.
(** The faces of the source mesh come first, so the polygons of the source mesh do, and the count tells which they are. *)
Theorem C69_source_first blocks r sms cms :
  trace_blocks blocks no_polygons = Some r -> concat blocks = sms ++ cms -> (forall f, In f sms -> source_face f = true) -> (forall f, In f cms -> source_face f = false) ->
  forall i f, In (i, f) (to_face r) -> (i < sm_count r <-> source_face f = true).
Proof.
  intros E EB HS HC i f I. rewrite empty_result in E. apply (blocks_from blocks [] [] r eq_refl) in E. cbn [app] in E. destruct E as (css & O & ->). rewrite EB in *. apply Forall2_app_inv_l in O. destruct O as (c1 & c2 & O1 & O2 & ->). pose proof (outcome_length _ _ O1) as L1.
  cbn [result to_face sm_count] in *. rewrite (owners_app _ _ _ _ L1) in *. set (o1 := owners sms c1) in *. set (o2 := owners cms c2) in *.
  assert (OIN : forall fs css f, In f (owners fs css) -> In f fs). { clear. induction fs as [|g fs IH]; intros [|cs css] f I; try destruct I. cbn in I. apply in_app_or in I. destruct I as [I|I]; [apply in_map_iff in I; destruct I as (x & <- & _); left; reflexivity|right; apply (IH css), I]. }
  assert (F1 : filter source_face o1 = o1). { assert (K : forall g, In g o1 -> source_face g = true) by (intros g Ig; apply HS, (OIN _ _ _ Ig)). revert K. clear. induction o1 as [|x l IH]; intros K; [reflexivity|]. cbn. rewrite (K x (or_introl eq_refl)). f_equal. apply IH. intros g Ig. apply K. right. exact Ig. }
  assert (F2 : filter source_face o2 = []). { assert (K : forall g, In g o2 -> source_face g = false) by (intros g Ig; apply HC, (OIN _ _ _ Ig)). revert K. clear. induction o2 as [|x l IH]; intros K; [reflexivity|]. cbn. rewrite (K x (or_introl eq_refl)). apply IH. intros g Ig. apply K. right. exact Ig. }
  rewrite filter_app, F1, F2, app_nil_r. rewrite table_app in I. cbn [plus] in I. apply in_app_or in I. destruct I as [I|I].
  - assert (K : In i (seq 0 (length o1))) by (rewrite <- table_keys; apply in_map_iff; exists (i, f); auto). apply in_seq in K. assert (Kf : In f o1) by (rewrite <- (table_vals 0 o1); apply in_map_iff; exists (i, f); auto). rewrite (HS f (OIN _ _ _ Kf)). split; [reflexivity|lia].
  - assert (K : In i (seq (length o1) (length o2))) by (rewrite <- (table_keys (length o1) o2); apply in_map_iff; exists (i, f); auto). apply in_seq in K. assert (Kf : In f o2) by (rewrite <- (table_vals (length o1) o2); apply in_map_iff; exists (i, f); auto). rewrite (HC f (OIN _ _ _ Kf)). split; [lia|discriminate].
Qed.
(** So the number of threads does not matter. *)
Theorem C69_same blocks blocks' : concat blocks = concat blocks' -> trace_blocks blocks no_polygons = trace_blocks blocks' no_polygons.
Proof.
  intros E. destruct (trace_blocks blocks no_polygons) as [r|] eqn:E1, (trace_blocks blocks' no_polygons) as [r'|] eqn:E2; try reflexivity; rewrite empty_result in E1, E2.
  - apply (blocks_from blocks [] [] r eq_refl) in E1. rewrite E in E1. apply (blocks_from blocks' [] [] r eq_refl) in E1. congruence.
  - apply (blocks_from blocks [] [] r eq_refl) in E1. rewrite E in E1. apply (blocks_from blocks' [] [] r eq_refl) in E1. congruence.
  - apply (blocks_from blocks' [] [] r' eq_refl) in E2. rewrite <- E in E2. apply (blocks_from blocks [] [] r' eq_refl) in E2. congruence.
Qed.
End C69.

(** A face without cuts keeps its halfedges, in order, wherever its edges are in the new mesh and however they are directed. *)
Theorem C69_unchanged seg psrc ptgt around (unchanged : list (nat * nat)) f :
  (forall ph, In ph (around f) -> exists e, lookup unchanged (edge ph) = Some e /\ (seg e = (psrc ph, ptgt ph) \/ seg e = (ptgt ph, psrc ph))) ->
  exists hs, retrace seg psrc around ptgt unchanged f = Some hs /\
    Forall2 (fun ph h => src seg h = psrc ph /\ tgt seg h = ptgt ph /\ lookup unchanged (edge ph) = Some (edge h)) (around f) hs.
Proof.
  unfold retrace. intros H. set (step := fun (acc : option (list nat)) ph => _).
  assert (G : forall phs acc, (forall ph, In ph phs -> exists e, lookup unchanged (edge ph) = Some e /\ (seg e = (psrc ph, ptgt ph) \/ seg e = (ptgt ph, psrc ph))) ->
    exists hs, fold_left step phs (Some acc) = Some (acc ++ hs) /\ Forall2 (fun ph h => src seg h = psrc ph /\ tgt seg h = ptgt ph /\ lookup unchanged (edge ph) = Some (edge h)) phs hs).
  { induction phs as [|ph phs IH]; intros acc K; [exists []; rewrite app_nil_r; split; [reflexivity|constructor]|]. destruct (K ph (or_introl eq_refl)) as (e & E & S).
    cbn [fold_left]. unfold step at 2. cbn [CutModel.bind]. rewrite E. cbn [CutModel.bind].
    set (h := if Nat.eqb (src seg (2 * e)) (psrc ph) && Nat.eqb (tgt seg (2 * e)) (ptgt ph) then 2 * e else 2 * e + 1).
    destruct (IH (acc ++ [h]) (fun q I => K q (or_intror I))) as (hs & F & A). exists (h :: hs). rewrite F, <- app_assoc. split; [reflexivity|]. constructor; [|exact A].
    destruct (even_2 e) as [V1 V2], (edge_2 e) as [D1 D2], (opp_2 e) as [O1 O2].
    assert (S1 : src seg (2 * e) = fst (seg e)) by (unfold src; rewrite V1, D1; reflexivity). assert (T1 : tgt seg (2 * e) = snd (seg e)) by (unfold tgt; rewrite O1; unfold src; rewrite V2, D2; reflexivity).
    assert (S2 : src seg (2 * e + 1) = snd (seg e)) by (unfold src; rewrite V2, D2; reflexivity). assert (T2 : tgt seg (2 * e + 1) = fst (seg e)) by (unfold tgt; rewrite O2; unfold src; rewrite V1, D1; reflexivity).
    subst h. rewrite S1, T1. destruct S as [S|S]; rewrite S in *; cbn [fst snd] in *.
    - rewrite !Nat.eqb_refl. cbn [andb]. rewrite D1. auto.
    - destruct (Nat.eqb_spec (ptgt ph) (psrc ph)) as [Q|Q]; cbn [andb]; [|rewrite D2; auto]. rewrite Q, Nat.eqb_refl. rewrite D1. split; [congruence|split; [congruence|exact E]]. }
  destruct (G (around f) [] H) as (hs & F & A). exists hs. auto.
Qed.
(** the triangle of ClipCases with the one on its other side; from one thread and from two *)
Definition pair_seg (e : nat) : nat * nat := nth e [(4, 3); (5, 6); (0, 3); (3, 1); (1, 4); (4, 2); (2, 5); (5, 0); (7, 8); (9, 7); (8, 9)] (0, 0).
Definition pair_src (h : nat) : nat := nth h [0; 1; 1; 2; 2; 0; 7; 8; 8; 9; 9; 7] 0.
Definition pair_tgt (h : nat) : nat := nth h [1; 0; 2; 1; 0; 2; 8; 7; 9; 8; 7; 9] 0.
Definition pair_trace (blocks : list (list nat)) : option traced :=
  trace_blocks pair_seg pair_src tri_face tri_halfedge one_registry 3 [] gnu_partition (fun f => if Nat.eqb f 0 then [0; 2; 4] else [6; 8; 10]) pair_tgt [(3, 8); (4, 10); (5, 9)] [(0, seq 0 8)] 1 blocks no_polygons.
Theorem C69_case : pair_trace [[0]; [1]] = pair_trace [[0; 1]] /\
  pair_trace [[0]; [1]] = Some {| polygons := [[12; 2; 3; 14; 4; 1; 10]; [6; 8; 0]; [16; 20; 18]]; sm_adjacent := [0; 1]; cm_adjacent := []; sm_count := 2; to_face := [(0, 0); (1, 0); (2, 1)] |}.
Proof. split; vm_compute; reflexivity. Qed.
