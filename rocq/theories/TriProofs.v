From Coq Require Import List ZArith Lia Bool Permutation.
From Verif Require Import Vec VecLemmas HmeshModel HmeshSpec HmeshCore HmeshFaces HmeshIter InputProofs ExtractProofs ParModel ParProofs DataModel DataSpec DataProofs DataRows DataProps TriModel TriSpec.
Import ListNotations.
Open Scope Z_scope.
Ltac Zify.zify_post_hook ::= idtac.

(** ** Lists *)

Lemma zlen_map' {A B} (f : A -> B) l : zlen (map f l) = zlen l.
Proof. unfold zlen. rewrite map_length. reflexivity. Qed.

Lemma zrange_succ n : 0 <= n -> zrange (n + 1) = zrange n ++ [n].
Proof. intros H. apply zrange_snoc. exact H. Qed.

Lemma firsts_ok n : filter (fun i => i mod 3 =? 0) (zrange (3 * Z.of_nat n)) = map (fun k => 3 * k) (zrange (Z.of_nat n)).
Proof.
  induction n as [|n IH]; [reflexivity|].
  replace (3 * Z.of_nat (S n)) with (3 * Z.of_nat n + 1 + 1 + 1) by lia. rewrite !zrange_succ by lia.
  rewrite !filter_app, IH. cbn [filter].
  replace (Z.of_nat (S n)) with (Z.of_nat n + 1) by lia. rewrite zrange_succ, map_app by lia. cbn [map].
  replace (3 * Z.of_nat n mod 3) with 0 by (Z.to_euclidean_division_equations; lia).
  replace ((3 * Z.of_nat n + 1) mod 3) with 1 by (Z.to_euclidean_division_equations; lia).
  replace ((3 * Z.of_nat n + 1 + 1) mod 3) with 2 by (Z.to_euclidean_division_equations; lia).
  cbn. rewrite !app_nil_r. reflexivity.
Qed.

Lemma store_all_zrange l : forall off, store_all off l = map (fun i => (off + i, nth (Z.to_nat i) l 0)) (zrange (zlen l)).
Proof.
  induction l as [|x l IH] using rev_ind; intros off; [reflexivity|].
  rewrite store_all_app, zlen_app. change (zlen [x]) with 1. rewrite zrange_succ by apply zlen_nonneg. rewrite map_app, IH. f_equal.
  - apply map_ext_in. intros i Hi. apply In_zrange in Hi. unfold zlen in Hi. f_equal. rewrite app_nth1 by lia. reflexivity.
  - cbn. do 2 f_equal. unfold zlen. rewrite Nat2Z.id, app_nth2, Nat.sub_diag by lia. reflexivity.
Qed.

Lemma vget_nth l i : 0 <= i < zlen l -> vget l i = Some (nth (Z.to_nat i) l 0).
Proof.
  intros H. destruct (vget_range_Some l i H) as [x Hx]. rewrite Hx. unfold vget in Hx. destruct (i <? 0) eqn:L; [apply Z.ltb_lt in L; lia|].
  f_equal. symmetry. apply nth_error_nth. exact Hx.
Qed.

Lemma omap_ok {A B} (g : A -> option B) h l : (forall x, In x l -> g x = Some (h x)) -> omap g l = Some (map h l).
Proof.
  induction l as [|x l IH]; intros H; [reflexivity|]. cbn. rewrite H by (left; reflexivity). cbn. rewrite IH; [reflexivity|]. intros y Hy. apply H. right. exact Hy.
Qed.

(** ** Stores into the caches *)

Definition idx_of (l : list cache_store) : list (Z * Z) := concat (map (fun x => match x with IndexStore o v => [(o, v)] | MapStore _ _ => [] end) l).
Definition map_of (l : list cache_store) : list (Z * Z) := concat (map (fun x => match x with MapStore o v => [(o, v)] | IndexStore _ _ => [] end) l).
Lemma idx_of_app a b : idx_of (a ++ b) = idx_of a ++ idx_of b.
Proof. unfold idx_of. rewrite map_app, concat_app. reflexivity. Qed.
Lemma map_of_app a b : map_of (a ++ b) = map_of a ++ map_of b.
Proof. unfold map_of. rewrite map_app, concat_app. reflexivity. Qed.
Lemma idx_of_concat l : idx_of (concat l) = concat (map idx_of l).
Proof. induction l as [|x l IH]; [reflexivity|]. cbn [concat map]. rewrite idx_of_app, IH. reflexivity. Qed.
Lemma map_of_concat l : map_of (concat l) = concat (map map_of l).
Proof. induction l as [|x l IH]; [reflexivity|]. cbn [concat map]. rewrite map_of_app, IH. reflexivity. Qed.
Lemma Permutation_concat_map {A B} (f : A -> list B) l l' : Permutation l l' -> Permutation (concat (map f l)) (concat (map f l')).
Proof.
  induction 1 as [|x l l' P IH|x y l|l l' l'' P IH P' IH']; cbn; [constructor|apply Permutation_app_head; exact IH| |rewrite IH; exact IH'].
  rewrite !app_assoc. apply Permutation_app_tail, Permutation_app_comm.
Qed.

Lemma thread_stores_ok maps off I M : 0 <= off -> off mod 3 = 0 -> off + zlen I < 2 ^ 32 -> (maps = true -> zlen I = 3 * zlen M) -> (maps = false -> M = []) ->
  exists st, thread_stores maps off (I, M) = Some st /\ idx_of st = store_all off I /\ map_of st = store_all (off / 3) M.
Proof.
  intros H0 H3 Hb Hl Hm. unfold thread_stores. cbn [fst snd].
  set (h := fun i => if maps && (i mod 3 =? 0) then [IndexStore (off + i) (nth (Z.to_nat i) I 0); MapStore (off / 3 + i / 3) (nth (Z.to_nat (i / 3)) M 0)]
                     else [IndexStore (off + i) (nth (Z.to_nat i) I 0)]).
  rewrite (omap_ok _ h).
  - cbn [option_map]. eexists. split; [reflexivity|]. rewrite idx_of_concat, map_of_concat, !map_map. split.
    + rewrite store_all_zrange. transitivity (concat (map (fun i => [(off + i, nth (Z.to_nat i) I 0)]) (zrange (zlen I)))).
      * f_equal. apply map_ext. intros i. unfold h. destruct (_ && _); reflexivity.
      * generalize (zrange (zlen I)). intros l. induction l as [|x l IH]; [reflexivity|]. cbn. rewrite IH. reflexivity.
    + destruct maps; cbn [andb] in *.
      * rewrite store_all_zrange, (Hl eq_refl).
        transitivity (map (fun i => (off / 3 + i / 3, nth (Z.to_nat (i / 3)) M 0)) (filter (fun i => i mod 3 =? 0) (zrange (3 * zlen M)))).
        -- generalize (zrange (3 * zlen M)). intros l. induction l as [|x l IH]; [reflexivity|]. cbn [map concat filter]. unfold h at 1. destruct (x mod 3 =? 0); cbn [map_of map concat app]; rewrite IH; reflexivity.
        -- unfold zlen. rewrite firsts_ok, map_map. apply map_ext. intros k. replace (3 * k / 3) with k by (Z.to_euclidean_division_equations; lia). reflexivity.
      * rewrite (Hm eq_refl). cbn [store_all]. generalize (zrange (zlen I)). intros l. induction l as [|x l IH]; [reflexivity|]. cbn. exact IH.
  - intros i Hi. apply In_zrange in Hi. assert (W : wrap32 (off + i) = off + i) by (apply Z.mod_small; lia). rewrite W, (vget_nth I i) by lia. cbn [obind]. unfold h.
    destruct maps; cbn [andb]; [|reflexivity]. destruct (Z.eqb_spec (i mod 3) 0) as [K|_]; [|reflexivity].
    rewrite (vget_nth M (i / 3)) by (specialize (Hl eq_refl); Z.to_euclidean_division_equations; lia). cbn [obind].
    replace ((off + i) / 3) with (off / 3 + i / 3) by (Z.to_euclidean_division_equations; lia). reflexivity.
Qed.

Lemma vset_run (l : list Z) : forall o v l', vset l o v = Some l' -> zlen l' = zlen l /\ forall j, vget l' j = if j =? o then Some v else vget l j.
Proof.
  intros o v l' H. split; [eapply vset_len; exact H|]. intros j. destruct (Z.eqb_spec j o) as [->|N]; [eapply vget_vset_eq; exact H|eapply vget_vset_neq; [exact H|congruence]].
Qed.

Lemma caches_run trace : forall a b (ma mb : mem),
  (forall o, 0 <= o < zlen a -> vget a o = Some (ma o)) -> (forall o, 0 <= o < zlen b -> vget b o = Some (mb o)) ->
  (forall o v, In (o, v) (idx_of trace) -> 0 <= o < zlen a) -> (forall o v, In (o, v) (map_of trace) -> 0 <= o < zlen b) ->
  exists a' b', ofold store_cache trace (a, b) = Some (a', b') /\ zlen a' = zlen a /\ zlen b' = zlen b /\
    (forall o, 0 <= o < zlen a -> vget a' o = Some (run ma (idx_of trace) o)) /\
    (forall o, 0 <= o < zlen b -> vget b' o = Some (run mb (map_of trace) o)).
Proof.
  induction trace as [|x trace IH]; intros a b ma mb Ha Hb Ra Rb.
  - exists a, b. repeat split; assumption.
  - destruct x as [o v|o v].
    + assert (R : 0 <= o < zlen a) by (apply (Ra o v); left; reflexivity). pose proof (vset_Some a o v R) as E. apply vset_run in E as E'. destruct E' as [L G].
      destruct (IH (lset a (Z.to_nat o) v) b (store ma (o, v)) mb) as (a' & b' & E1 & L1 & L2 & G1 & G2).
      * intros j Hj. rewrite G. unfold store. cbn. destruct (j =? o); [reflexivity|]. apply Ha. lia.
      * exact Hb.
      * intros j w Hj. rewrite L. apply (Ra j w). right. exact Hj.
      * intros j w Hj. apply (Rb j w). exact Hj.
      * exists a', b'. cbn [ofold store_cache fst snd]. rewrite E. cbn [obind]. split; [exact E1|]. split; [congruence|]. split; [exact L2|]. split; [|exact G2].
        intros j Hj. apply (G1 j). lia.
    + assert (R : 0 <= o < zlen b) by (apply (Rb o v); left; reflexivity). pose proof (vset_Some b o v R) as E. apply vset_run in E as E'. destruct E' as [L G].
      destruct (IH a (lset b (Z.to_nat o) v) ma (store mb (o, v))) as (a' & b' & E1 & L1 & L2 & G1 & G2).
      * exact Ha.
      * intros j Hj. rewrite G. unfold store. cbn. destruct (j =? o); [reflexivity|]. apply Hb. lia.
      * intros j w Hj. apply (Ra j w). exact Hj.
      * intros j w Hj. rewrite L. apply (Rb j w). right. exact Hj.
      * exists a', b'. cbn [ofold store_cache fst snd]. rewrite E. cbn [obind]. split; [exact E1|]. split; [exact L1|]. split; [congruence|]. split; [exact G1|].
        intros j Hj. apply (G2 j). lia.
Qed.

Lemma run_content l content m o : Permutation (store_all 0 content) l -> 0 <= o < zlen content -> Some (run m l o) = vget content o.
Proof.
  intros P H. rewrite (vget_nth content o H). f_equal. apply run_in.
  - apply (Permutation_NoDup (l := map fst (store_all 0 content))); [apply Permutation_map; exact P|apply NoDup_fst_store_all].
  - apply (Permutation_in _ P). apply In_store_all. exists o. split; [apply vget_nth; exact H|lia].
Qed.

Lemma vget_repeat n o : 0 <= o < Z.of_nat n -> vget (repeat 0 n) o = Some 0.
Proof.
  intros H. rewrite vget_nth by (unfold zlen; rewrite repeat_length; lia). f_equal. apply nth_repeat.
Qed.

(** the two caches after the stores *)
Lemma caches_content trace CI CM : Permutation (store_all 0 CI) (idx_of trace) -> Permutation (store_all 0 CM) (map_of trace) ->
  ofold store_cache trace (repeat 0 (Z.to_nat (zlen CI)), repeat 0 (Z.to_nat (zlen CM))) = Some (CI, CM).
Proof.
  intros PI PM. pose proof (zlen_nonneg CI) as N1. pose proof (zlen_nonneg CM) as N2.
  assert (L1 : zlen (repeat 0 (Z.to_nat (zlen CI))) = zlen CI) by (unfold zlen at 1; rewrite repeat_length; lia).
  assert (L2 : zlen (repeat 0 (Z.to_nat (zlen CM))) = zlen CM) by (unfold zlen at 1; rewrite repeat_length; lia).
  destruct (caches_run trace (repeat 0 (Z.to_nat (zlen CI))) (repeat 0 (Z.to_nat (zlen CM))) (fun _ => 0) (fun _ => 0)) as (a & b & E & La & Lb & Ga & Gb).
  - intros o Ho. apply vget_repeat. lia.
  - intros o Ho. apply vget_repeat. lia.
  - intros o v H. apply (Permutation_in _ (Permutation_sym PI)) in H. apply In_store_all in H. destruct H as (i & V & ->). apply vget_Some_range in V. lia.
  - intros o v H. apply (Permutation_in _ (Permutation_sym PM)) in H. apply In_store_all in H. destruct H as (i & V & ->). apply vget_Some_range in V. lia.
  - rewrite E. f_equal. f_equal; apply CompProps.vget_ext; try lia; intros o Ho.
    + rewrite Ga by lia. apply run_content; [exact PI|lia].
    + rewrite Gb by lia. apply run_content; [exact PM|lia].
Qed.

(** ** Offsets *)

Definition sumz (l : list Z) : Z := fold_right Z.add 0 l.
Lemma sumz_app a b : sumz (a ++ b) = sumz a + sumz b.
Proof. induction a as [|x a IH]; [reflexivity|]. cbn. unfold sumz in IH. rewrite IH. unfold sumz. lia. Qed.
Lemma sumz_nonneg l : (forall x, In x l -> 0 <= x) -> 0 <= sumz l.
Proof. induction l as [|x l IH]; intros H; [unfold sumz; cbn; lia|]. cbn. specialize (IH (fun y Hy => H y (or_intror Hy))). specialize (H x (or_introl eq_refl)). unfold sumz in IH. lia. Qed.
Lemma sumz_perm a b : Permutation a b -> sumz a = sumz b.
Proof. induction 1; cbn; unfold sumz in *; lia. Qed.

Section Fetch.
Variable len : Z -> Z.
Hypothesis Len : forall k, 0 <= len k.

Lemma assoc_cons p l k : assoc (p :: l) k = if fst p =? k then Some (snd p) else assoc l k.
Proof. unfold assoc. cbn. destruct (fst p =? k); reflexivity. Qed.

Lemma fetches_ok order : forall counter pre k post, order = pre ++ k :: post -> ~ In k pre -> 0 <= counter -> counter + sumz (map len order) < 2 ^ 32 ->
  assoc (fetches counter order len) k = Some (counter + sumz (map len pre)).
Proof.
  induction order as [|x order IH]; intros counter pre k post E N H0 H; [destruct pre; discriminate|].
  cbn [fetches]. rewrite assoc_cons. cbn [fst snd]. destruct pre as [|y pre]; injection E as -> E.
  - rewrite Z.eqb_refl. cbn. f_equal. lia.
  - destruct (Z.eqb_spec y k) as [K|_]; [destruct N; left; exact K|]. cbn [map sumz fold_right] in H |- *. fold (sumz (map len order)) in H.
    assert (0 <= sumz (map len order)) by (apply sumz_nonneg; intros z Hz; apply in_map_iff in Hz; destruct Hz as (w & <- & _); apply Len). pose proof (Len y).
    assert (W : wrap32 (counter + len y) = counter + len y) by (apply Z.mod_small; lia). rewrite W.
    rewrite (IH (counter + len y) pre k post E); [f_equal; unfold sumz; lia| |lia|lia]. intros K. apply N. right. exact K.
Qed.
End Fetch.

(** ** Faces and blocks *)

Section Result.
Variable e : env.
Variable c : cc.
Variable tri : Z -> option (list Z).
Variable maps : bool.
Hypothesis C : component_mesh (c_mesh c).
Hypothesis P : pool_ok e.
Hypothesis T : triangulates (c_mesh c) tri.
Hypothesis FM : maps = true -> zlen (c_fmap c) = zlen (faces (c_mesh c)).
Hypothesis Small : tri_total c tri < 2 ^ 32.

Lemma row_exists f : 0 <= f < zlen (faces (c_mesh c)) -> exists vs, get_vertices_around_face (c_mesh c) f = Some vs.
Proof.
  intros H. destruct (face_rows_ok (c_mesh c) C) as (rows & _ & L & R). rewrite (R f H). apply vget_range_Some. lia.
Qed.

Definition user_of (f : Z) : Z := match vget (c_fmap c) f with Some k => user_face c k | None => 0 end.

Lemma length_triples (ls : list Z) ts : triples ls ts -> zlen ls = 3 * zlen ts.
Proof.
  intros [-> H]. induction ts as [|t ts IH]; [reflexivity|]. cbn [concat]. rewrite zlen_app, IH by (intros x Hx; apply H; right; exact Hx).
  rewrite (H t) by (left; reflexivity). unfold zlen. cbn [length]. lia.
Qed.

Lemma triples_map (g : Z -> Z) ls ts : triples ls ts -> triples (map g ls) (map (map g) ts).
Proof.
  intros [-> H]. split; [apply concat_map|]. intros t Ht. apply in_map_iff in Ht. destruct Ht as (t' & <- & Ht). rewrite zlen_map'. apply H. exact Ht.
Qed.

Lemma face_local_ok b f : (b = true -> maps = true) -> 0 <= f < zlen (faces (c_mesh c)) -> exists ts, made_from (c_mesh c) tri f ts /\ (forall t, In t ts -> zlen t = 3) /\
  face_local c tri b f = Some (concat ts, if b then map (fun _ => user_of f) ts else []).
Proof.
  intros Hb H. destruct (row_exists f H) as [vs E]. unfold face_local. rewrite E. cbn [obind].
  assert (G : b = true -> exists k, vget (c_fmap c) f = Some k) by (intros K; apply vget_range_Some; rewrite (FM (Hb K)); exact H).
  destruct (Z.eqb_spec (zlen vs) 3) as [L|L].
  - exists [vs]. split; [exists vs; auto|]. split; [intros t [<-|[]]; exact L|]. cbn [concat map]. rewrite app_nil_r. destruct b; [|reflexivity].
    destruct (G eq_refl) as [k K]. unfold user_of. rewrite K. reflexivity.
  - destruct (T f vs E L) as (ls & ts & Et & Tr & Rg). rewrite Et. cbn [obind]. rewrite (omap_ok _ (fun i => nth (Z.to_nat i) vs 0)) by (intros i Hi; apply vget_nth, Rg; exact Hi). cbn [obind].
    pose proof (triples_map (fun i => nth (Z.to_nat i) vs 0) ls ts Tr) as Tr'. exists (map (map (fun i => nth (Z.to_nat i) vs 0)) ts).
    split; [exists vs; split; [exact E|]; right; split; [exact L|]; exists ls; split; [exact Et|exact Tr']|]. split; [apply Tr'|].
    rewrite <- (proj1 Tr'). destruct b.
    + destruct (G eq_refl) as [k K]. rewrite (omap_ok _ (fun _ => user_of f)) by (intros i _; unfold user_of; rewrite K; reflexivity). cbn [obind].
      do 2 f_equal. rewrite (length_triples _ _ Tr). unfold zlen. rewrite firsts_ok, map_map, map_map. unfold zrange. rewrite map_map.
      rewrite Nat2Z.id. generalize 0%nat. generalize ts. induction ts0 as [|t r IH]; intros n; [reflexivity|]. cbn. f_equal. apply IH.
    + reflexivity.
Qed.

Definition I_of (f : Z) : list Z := match face_local c tri maps f with Some p => fst p | None => [] end.
Definition M_of (f : Z) : list Z := match face_local c tri maps f with Some p => snd p | None => [] end.

Lemma face_local_split f : 0 <= f < zlen (faces (c_mesh c)) -> face_local c tri maps f = Some (I_of f, M_of f).
Proof. intros H. unfold I_of, M_of. destruct (face_local_ok maps f (fun K => K) H) as (ts & _ & _ & ->). reflexivity. Qed.
Lemma I_M_len f : 0 <= f < zlen (faces (c_mesh c)) -> maps = true -> zlen (I_of f) = 3 * zlen (M_of f).
Proof.
  intros H Hm. unfold I_of, M_of. destruct (face_local_ok maps f (fun K => K) H) as (ts & _ & L & ->). cbn [fst snd]. rewrite Hm, zlen_map'.
  apply length_triples. split; [reflexivity|exact L].
Qed.
Lemma I_mult f : 0 <= f < zlen (faces (c_mesh c)) -> zlen (I_of f) mod 3 = 0.
Proof.
  intros H. unfold I_of. destruct (face_local_ok maps f (fun K => K) H) as (ts & _ & L & ->). cbn [fst].
  rewrite (length_triples (concat ts) ts) by (split; [reflexivity|exact L]). Z.to_euclidean_division_equations; lia.
Qed.
Lemma I_false f : 0 <= f < zlen (faces (c_mesh c)) -> match face_local c tri false f with Some p => zlen (fst p) | None => 0 end = zlen (I_of f).
Proof.
  intros H. destruct (row_exists f H) as [vs E]. unfold I_of, face_local. rewrite E. cbn [obind].
  assert (G : maps = true -> exists k, vget (c_fmap c) f = Some k) by (intros K; apply vget_range_Some; rewrite (FM K); exact H).
  destruct (Z.eqb_spec (zlen vs) 3) as [L|L]; [destruct maps; [destruct (G eq_refl) as [k ->]|]; reflexivity|].
  destruct (tri f) as [ls|]; [|reflexivity]. cbn [obind]. destruct (omap (vget vs) ls) as [gs|]; [|reflexivity]. cbn [obind].
  destruct maps; [|reflexivity]. destruct (G eq_refl) as [k K].
  cbn [omap obind]. rewrite (omap_ok _ (fun _ => user_face c k)) by (intros i _; rewrite K; reflexivity). reflexivity.
Qed.

Definition BI (b : block) : list Z := concat (map I_of (elements b)).
Definition BM (b : block) : list Z := concat (map M_of (elements b)).

Lemma blocks_exist : exists bs, par_blocks (e_pool e) (zlen (faces (c_mesh c))) 1024 = Some bs /\ concat (map elements bs) = zrange (zlen (faces (c_mesh c))).
Proof.
  pose proof (cm_small _ C) as (_ & _ & S3). pose proof (cm_nonempty _ C) as (_ & Ne). assert (1 <= zlen (faces (c_mesh c))) by (unfold zlen; destruct (faces (c_mesh c)); [congruence|cbn [length]; lia]).
  destruct (plan_ok (e_pool e) (zlen (faces (c_mesh c))) 1024) as (w & ms & E & _ & Ce & _); [assumption|apply P|lia|lia|].
  exists (w ++ [ms]). unfold par_blocks. rewrite E. auto.
Qed.

Lemma omap_sub (l : list Z) : (forall f, In f l -> 0 <= f < zlen (faces (c_mesh c))) -> omap (face_local c tri maps) l = Some (map (fun f => (I_of f, M_of f)) l).
Proof. intros H. apply omap_ok. intros f Hf. apply face_local_split, H, Hf. Qed.

Lemma locs_ok bs : concat (map elements bs) = zrange (zlen (faces (c_mesh c))) -> omap (block_local c tri maps) bs = Some (map (fun b => (BI b, BM b)) bs).
Proof.
  intros Ce. apply omap_ok. intros b Hb. unfold block_local. rewrite omap_sub.
  - cbn [obind]. rewrite !map_map. reflexivity.
  - intros f Hf. apply In_zrange. rewrite <- Ce. apply in_concat. exists (elements b). split; [apply in_map; exact Hb|exact Hf].
Qed.

Definition blk (bs : list block) (k : Z) : block := nth (Z.to_nat k) bs (Blk 0 0).
Definition faces_in (bs : list block) (order : list Z) : list Z := concat (map (fun k => elements (blk bs k)) order).

Lemma map_blk {B} (g : block -> B) bs : map (fun k => g (blk bs k)) (zrange (zlen bs)) = map g bs.
Proof.
  induction bs as [|b bs IH] using rev_ind; [reflexivity|]. rewrite zlen_app. change (zlen [b]) with 1. rewrite zrange_succ by apply zlen_nonneg. rewrite !map_app, <- IH. f_equal.
  - apply map_ext_in. intros k Hk. apply In_zrange in Hk. unfold zlen in Hk. unfold blk. rewrite app_nth1 by lia. reflexivity.
  - cbn. unfold blk, zlen. rewrite Nat2Z.id, app_nth2, Nat.sub_diag by lia. reflexivity.
Qed.

Lemma faces_in_perm bs order : concat (map elements bs) = zrange (zlen (faces (c_mesh c))) -> Permutation (zrange (zlen bs)) order ->
  Permutation (zrange (zlen (faces (c_mesh c)))) (faces_in bs order).
Proof.
  intros Ce Po. rewrite <- Ce, <- (map_blk elements bs). apply (Permutation_concat_map (fun k => elements (blk bs k))). exact Po.
Qed.

Lemma zlen_concat_map {A} (g : A -> list Z) l : zlen (concat (map g l)) = sumz (map (fun x => zlen (g x)) l).
Proof. induction l as [|x l IH]; [reflexivity|]. cbn [map concat sumz fold_right]. rewrite zlen_app, IH. reflexivity. Qed.
Lemma concat_concat_map {A B} (g : A -> list B) l : concat (map (fun x => concat (map g x)) l) = concat (map g (concat l)).
Proof. induction l as [|x l IH]; [reflexivity|]. cbn. rewrite map_app, concat_app, IH. reflexivity. Qed.

Lemma vget_map_blk {B} (g : block -> B) bs k : 0 <= k < zlen bs -> vget (map g bs) k = Some (g (blk bs k)).
Proof.
  intros H. rewrite DispatchCand.vget_map. destruct (vget_range_Some bs k H) as [b Hb]. rewrite Hb. cbn. f_equal. f_equal. unfold blk.
  unfold vget in Hb. destruct (k <? 0); [discriminate|]. symmetry. apply nth_error_nth. exact Hb.
Qed.

Fixpoint prefix_stores (off : Z) (order : list Z) (L : Z -> list Z) : list (Z * list (Z * Z)) :=
  match order with
  | [] => []
  | k :: r => (k, store_all off (L k)) :: prefix_stores (off + zlen (L k)) r L
  end.
Lemma prefix_concat L order : forall off, concat (map snd (prefix_stores off order L)) = store_all off (concat (map L order)).
Proof. induction order as [|k r IH]; intros off; [reflexivity|]. cbn. rewrite IH, store_all_app. reflexivity. Qed.
Lemma prefix_fst L order : forall off, map fst (prefix_stores off order L) = order.
Proof. induction order as [|k r IH]; intros off; [reflexivity|]. cbn. rewrite IH. reflexivity. Qed.
Lemma prefix_In L order : forall off pre k post, order = pre ++ k :: post -> In (k, store_all (off + sumz (map (fun j => zlen (L j)) pre)) (L k)) (prefix_stores off order L).
Proof.
  induction order as [|x r IH]; intros off pre k post E; [destruct pre; discriminate|]. destruct pre as [|y pre]; injection E as -> E; cbn.
  - left. do 2 f_equal. lia.
  - right. specialize (IH (off + zlen (L y)) pre k post E). unfold sumz in IH. replace (off + (zlen (L y) + fold_right Z.add 0 (map (fun j => zlen (L j)) pre))) with (off + zlen (L y) + fold_right Z.add 0 (map (fun j => zlen (L j)) pre)) by lia. exact IH.
Qed.

(** if every thread's stores are those of its slot, all of them together are the stores of the
    concatenation *)
Lemma stores_perm L order n (g : Z -> list (Z * Z)) : Permutation (zrange n) order ->
  (forall pre k post, order = pre ++ k :: post -> g k = store_all (sumz (map (fun j => zlen (L j)) pre)) (L k)) ->
  Permutation (store_all 0 (concat (map L order))) (concat (map g (zrange n))).
Proof.
  intros Po H. rewrite <- (prefix_concat L order 0). transitivity (concat (map g order)).
  - replace (concat (map snd (prefix_stores 0 order L))) with (concat (map g order)); [reflexivity|]. f_equal.
    assert (G : forall l off pre, order = pre ++ l -> off = sumz (map (fun j => zlen (L j)) pre) -> map g l = map snd (prefix_stores off l L)).
    { induction l as [|k l IH]; intros off pre E Eo; [reflexivity|]. cbn. f_equal; [subst off; apply (H pre k l E)|].
      apply (IH _ (pre ++ [k])); [rewrite <- app_assoc; exact E|]. rewrite map_app, sumz_app. subst off. cbn. unfold sumz. lia. }
    apply (G order 0 []); reflexivity.
  - apply Permutation_concat_map. apply Permutation_sym. exact Po.
Qed.

Lemma result_core bs order : par_blocks (e_pool e) (zlen (faces (c_mesh c))) 1024 = Some bs -> concat (map elements bs) = zrange (zlen (faces (c_mesh c))) ->
  Permutation (zrange (zlen bs)) order ->
  let locs := map (fun b => (BI b, BM b)) bs in
  let len k := match vget locs k with Some l => zlen (fst l) | None => 0 end in
  let total := wrap32 (fold_right Z.add 0 (map len order)) in
  exists stores, omap (fun kl => do off <- assoc (fetches 0 order len) (fst kl); thread_stores maps off (snd kl)) (combine (zrange (zlen bs)) locs) = Some stores /\
    forall trace, interleaving stores trace ->
      ofold store_cache trace (repeat 0 (Z.to_nat total), if maps then repeat 0 (Z.to_nat (total / 3)) else []) =
        Some (concat (map I_of (faces_in bs order)), concat (map M_of (faces_in bs order))).
Proof.
  intros Eb Ce Po locs len total.
  assert (Ro : forall k, In k order -> 0 <= k < zlen bs) by (intros k Hk; apply In_zrange, (Permutation_in _ (Permutation_sym Po)); exact Hk).
  assert (Rf : forall k f, 0 <= k < zlen bs -> In f (elements (blk bs k)) -> 0 <= f < zlen (faces (c_mesh c))).
  { intros k f Hk Hf. apply In_zrange. rewrite <- Ce, <- (map_blk elements bs). apply in_concat. exists (elements (blk bs k)). split; [|exact Hf].
    apply (in_map (fun k => elements (blk bs k))). apply In_zrange. exact Hk. }
  assert (Ln : forall k, 0 <= k < zlen bs -> len k = zlen (BI (blk bs k))) by (intros k Hk; unfold len, locs; rewrite vget_map_blk by exact Hk; reflexivity).
  assert (Lp : forall k, 0 <= len k) by (intros k; unfold len; destruct (vget locs k); [apply zlen_nonneg|lia]).
  assert (Tot : sumz (map len order) = tri_total c tri).
  { transitivity (sumz (map (fun k => zlen (BI (blk bs k))) order)); [f_equal; apply map_ext_in; intros k Hk; apply Ln, Ro, Hk|].
    rewrite <- (sumz_perm (map (fun k => zlen (BI (blk bs k))) (zrange (zlen bs)))) by (apply Permutation_map; exact Po).
    rewrite (map_blk (fun b => zlen (BI b)) bs), <- zlen_concat_map. unfold BI. rewrite <- (map_map elements (fun x => concat (map I_of x))), concat_concat_map, Ce.
    rewrite zlen_concat_map. unfold tri_total, sumz. f_equal. apply map_ext_in. intros f Hf. apply In_zrange in Hf. symmetry. apply I_false. exact Hf. }
  assert (Pre : forall pre k post, order = pre ++ k :: post -> assoc (fetches 0 order len) k = Some (sumz (map len pre)) /\
             0 <= sumz (map len pre) /\ sumz (map len pre) + len k <= tri_total c tri /\ sumz (map len pre) = sumz (map (fun j => zlen (BI (blk bs j))) pre) /\
             sumz (map len pre) mod 3 = 0 /\ (maps = true -> sumz (map len pre) / 3 = sumz (map (fun j => zlen (BM (blk bs j))) pre)) /\ 0 <= k < zlen bs).
  { intros pre k post E. assert (N : NoDup order) by (eapply Permutation_NoDup; [exact Po|apply NoDup_zrange]).
    assert (Np : ~ In k pre) by (rewrite E in N; apply NoDup_remove_2 in N; intros K; apply N, in_app_iff; left; exact K).
    assert (Rp : forall j, In j pre -> 0 <= j < zlen bs) by (intros j Hj; apply Ro; rewrite E; apply in_app_iff; left; exact Hj).
    assert (Sp : 0 <= sumz (map len pre)) by (apply sumz_nonneg; intros z Hz; apply in_map_iff in Hz; destruct Hz as (w & <- & _); apply Lp).
    assert (Spost : 0 <= sumz (map len post)) by (apply sumz_nonneg; intros z Hz; apply in_map_iff in Hz; destruct Hz as (w & <- & _); apply Lp).
    assert (Le : sumz (map len pre) + len k <= tri_total c tri).
    { rewrite <- Tot, E, map_app, sumz_app. cbn [map sumz fold_right]. fold (sumz (map len post)). lia. }
    assert (Eq : sumz (map len pre) = sumz (map (fun j => zlen (BI (blk bs j))) pre)) by (f_equal; apply map_ext_in; intros j Hj; apply Ln, Rp, Hj).
    split; [rewrite (fetches_ok len Lp order 0 pre k post E Np); [f_equal; lia|lia|rewrite Tot; exact Small]|].
    split; [exact Sp|]. split; [exact Le|]. split; [exact Eq|].
    assert (M3 : forall l, (forall f, In f l -> 0 <= f < zlen (faces (c_mesh c))) -> zlen (concat (map I_of l)) mod 3 = 0 /\ (maps = true -> zlen (concat (map I_of l)) = 3 * zlen (concat (map M_of l)))).
    { clear - C T FM P. induction l as [|f l IH]; intros H; [split; reflexivity|]. cbn [map concat]. rewrite !zlen_app. destruct IH as [I1 I2]; [intros g Hg; apply H; right; exact Hg|].
      pose proof (I_mult f (H f (or_introl eq_refl))). split; [rewrite Z.add_mod, I1, H0 by lia; reflexivity|]. intros Hm. rewrite (I2 Hm), (I_M_len f (H f (or_introl eq_refl)) Hm). lia. }
    assert (G : sumz (map (fun j => zlen (BI (blk bs j))) pre) mod 3 = 0 /\ (maps = true -> sumz (map (fun j => zlen (BI (blk bs j))) pre) = 3 * sumz (map (fun j => zlen (BM (blk bs j))) pre))).
    { clear - Rp Rf M3. induction pre as [|j pre IH]; [split; reflexivity|]. cbn [map sumz fold_right]. destruct IH as [I1 I2]; [intros i Hi; apply Rp; right; exact Hi|].
      destruct (M3 (elements (blk bs j))) as [J1 J2]; [intros f Hf; apply (Rf j f); [apply Rp; left; reflexivity|exact Hf]|]. fold (BI (blk bs j)) in J1, J2. fold (BM (blk bs j)) in J2. unfold sumz in *. split.
      - rewrite Z.add_mod, I1, J1 by lia. reflexivity.
      - intros Hm. rewrite (I2 Hm), (J2 Hm). lia. }
    rewrite Eq. destruct G as [G1 G2]. split; [exact G1|]. split; [intros Hm; rewrite (G2 Hm), Z.mul_comm; apply Z.div_mul; lia|].
    apply Ro. rewrite E. apply in_app_iff. right. left. reflexivity. }
  assert (Blk3 : forall k, 0 <= k < zlen bs -> maps = true -> zlen (BI (blk bs k)) = 3 * zlen (BM (blk bs k))).
  { intros k Hk Hm. unfold BI, BM. assert (G : forall l, (forall f, In f l -> 0 <= f < zlen (faces (c_mesh c))) -> zlen (concat (map I_of l)) = 3 * zlen (concat (map M_of l))).
    { clear - C T FM P Hm. induction l as [|f l IH]; intros H; [reflexivity|]. cbn [map concat]. rewrite !zlen_app, (I_M_len f (H f (or_introl eq_refl)) Hm), IH; [lia|]. intros g Hg. apply H. right. exact Hg. }
    apply G. intros f. apply Rf. exact Hk. }
  assert (BMnil : forall k, 0 <= k < zlen bs -> maps = false -> BM (blk bs k) = []).
  { intros k Hk Hm. unfold BM. assert (G : forall l, (forall f, In f l -> 0 <= f < zlen (faces (c_mesh c))) -> concat (map M_of l) = []).
    { clear - C T FM P Hm. induction l as [|f l IH]; intros H; [reflexivity|]. cbn [map concat]. rewrite IH by (intros g Hg; apply H; right; exact Hg).
      unfold M_of. destruct (face_local_ok maps f (fun K => K) (H f (or_introl eq_refl))) as (ts & _ & _ & ->). cbn [snd]. rewrite Hm. reflexivity. }
    apply G. intros f. apply Rf. exact Hk. }
  (* the stores of thread k *)
  assert (St : forall k, 0 <= k < zlen bs -> exists st, (do off <- assoc (fetches 0 order len) k; thread_stores maps off (BI (blk bs k), BM (blk bs k))) = Some st /\
     forall pre post, order = pre ++ k :: post -> idx_of st = store_all (sumz (map (fun j => zlen (BI (blk bs j))) pre)) (BI (blk bs k)) /\
                                              map_of st = store_all (sumz (map (fun j => zlen (BM (blk bs j))) pre)) (BM (blk bs k))).
  { intros k Hk. assert (Hin : In k order) by (apply (Permutation_in _ Po), In_zrange; exact Hk). apply in_split in Hin. destruct Hin as (pre & post & E).
    destruct (Pre pre k post E) as (A & A0 & A1 & A2 & A3 & A4 & _). rewrite A. cbn [obind]. rewrite (Ln k Hk) in A1.
    destruct (thread_stores_ok maps (sumz (map len pre)) (BI (blk bs k)) (BM (blk bs k)) A0 A3) as (st & E1 & E2 & E3); [lia|apply Blk3; exact Hk|apply BMnil; exact Hk|].
    exists st. split; [exact E1|]. intros pre' post' E'.
    assert (pre' = pre) as ->.
    { assert (N : NoDup order) by (eapply Permutation_NoDup; [exact Po|apply NoDup_zrange]). clear - E E' N. rewrite E in N, E'. clear E order. revert pre' E'. induction pre as [|x pre IH]; intros pre' E'.
      - destruct pre' as [|y pre']; [reflexivity|]. injection E' as -> ->. inversion N as [|? ? A _]. destruct A. apply in_app_iff. right. left. reflexivity.
      - destruct pre' as [|y pre']; injection E' as -> E'.
        + inversion N as [|? ? A _]. destruct A. apply in_app_iff. right. left. reflexivity.
        + f_equal. apply IH; [|exact E']. inversion N. assumption. }
    rewrite <- A2. split; [exact E2|]. rewrite E3. destruct (Bool.bool_dec maps true) as [Hm|Hm]; [rewrite (A4 Hm); reflexivity|]. apply not_true_is_false in Hm. rewrite (BMnil k Hk Hm). reflexivity. }
  set (h := fun k => match (do off <- assoc (fetches 0 order len) k; thread_stores maps off (BI (blk bs k), BM (blk bs k))) with Some st => st | None => [] end).
  assert (Ec : combine (zrange (zlen bs)) locs = map (fun k => (k, (BI (blk bs k), BM (blk bs k)))) (zrange (zlen bs))).
  { unfold locs. rewrite <- (map_blk (fun b => (BI b, BM b)) bs). generalize (zrange (zlen bs)). intros l. clear. induction l as [|x l IH]; [reflexivity|]. cbn. rewrite IH. reflexivity. }
  exists (map h (zrange (zlen bs))). split.
  - rewrite Ec. rewrite (omap_ok _ (fun kl => h (fst kl))).
    + rewrite map_map. reflexivity.
    + intros kl Hkl. apply in_map_iff in Hkl. destruct Hkl as (k & <- & Hk). apply In_zrange in Hk. cbn [fst snd]. unfold h. destruct (St k Hk) as (st & -> & _). reflexivity.
  - intros trace It. apply interleaving_perm in It.
    assert (Hi : forall pre k post, order = pre ++ k :: post -> idx_of (h k) = store_all (sumz (map (fun j => zlen (BI (blk bs j))) pre)) (BI (blk bs k)) /\
                 map_of (h k) = store_all (sumz (map (fun j => zlen (BM (blk bs j))) pre)) (BM (blk bs k))).
    { intros pre k post E. assert (Hk : 0 <= k < zlen bs) by apply (Pre pre k post E). unfold h. destruct (St k Hk) as (st & -> & G). exact (G pre post E). }
    assert (PI : Permutation (store_all 0 (concat (map (fun k => BI (blk bs k)) order))) (idx_of trace)).
    { transitivity (concat (map (fun k => idx_of (h k)) (zrange (zlen bs)))).
      - apply stores_perm; [exact Po|]. intros pre k post E. apply (Hi pre k post E).
      - rewrite <- (map_map h idx_of), <- idx_of_concat. unfold idx_of. apply (Permutation_concat_map (fun x => match x with IndexStore o v => [(o, v)] | MapStore _ _ => [] end)). exact It. }
    assert (PM : Permutation (store_all 0 (concat (map (fun k => BM (blk bs k)) order))) (map_of trace)).
    { transitivity (concat (map (fun k => map_of (h k)) (zrange (zlen bs)))).
      - apply stores_perm; [exact Po|]. intros pre k post E. apply (Hi pre k post E).
      - rewrite <- (map_map h map_of), <- map_of_concat. unfold map_of. apply (Permutation_concat_map (fun x => match x with MapStore o v => [(o, v)] | IndexStore _ _ => [] end)). exact It. }
    pose proof (caches_content trace _ _ PI PM) as G.
    assert (E1 : zlen (concat (map (fun k => BI (blk bs k)) order)) = total).
    { rewrite zlen_concat_map. unfold total. fold (sumz (map len order)). unfold wrap32. rewrite Z.mod_small.
      - f_equal. apply map_ext_in. intros k Hk. symmetry. apply Ln, Ro, Hk.
      - split; [apply sumz_nonneg; intros z Hz; apply in_map_iff in Hz; destruct Hz as (w & <- & _); apply Lp|rewrite Tot; exact Small]. }
    assert (E2 : (if maps then repeat 0 (Z.to_nat (total / 3)) else []) = repeat 0 (Z.to_nat (zlen (concat (map (fun k => BM (blk bs k)) order))))).
    { destruct (Bool.bool_dec maps true) as [Hm|Hm].
      - rewrite Hm. do 2 f_equal. rewrite <- E1, !zlen_concat_map. clear - Ro Blk3 Hm.
        assert (G : sumz (map (fun k => zlen (BI (blk bs k))) order) = 3 * sumz (map (fun k => zlen (BM (blk bs k))) order)).
        { induction order as [|k r IH]; [reflexivity|]. cbn [map sumz fold_right]. rewrite (Blk3 k (Ro k (or_introl eq_refl)) Hm). unfold sumz in IH. rewrite IH; [unfold sumz; lia|]. intros j Hj. apply Ro. right. exact Hj. }
        rewrite G, Z.mul_comm. apply Z.div_mul. lia.
      - apply not_true_is_false in Hm. rewrite Hm. replace (concat (map (fun k => BM (blk bs k)) order)) with (@nil Z); [reflexivity|].
        clear - Ro BMnil Hm. induction order as [|k r IH]; [reflexivity|]. cbn [map concat]. rewrite (BMnil k (Ro k (or_introl eq_refl)) Hm). apply IH. intros j Hj. apply Ro. right. exact Hj. }
    rewrite E1, <- E2 in G. rewrite G. f_equal. f_equal.
    + unfold BI, faces_in. rewrite <- (map_map (fun k => elements (blk bs k)) (fun x => concat (map I_of x))). apply concat_concat_map.
    + unfold BM, faces_in. rewrite <- (map_map (fun k => elements (blk bs k)) (fun x => concat (map M_of x))). apply concat_concat_map.
Qed.

Lemma result_iff idx fm : tri_result e c tri maps idx fm <-> exists bs order, par_blocks (e_pool e) (zlen (faces (c_mesh c))) 1024 = Some bs /\
  Permutation (zrange (zlen bs)) order /\ idx = concat (map I_of (faces_in bs order)) /\ fm = concat (map M_of (faces_in bs order)).
Proof.
  destruct blocks_exist as (bs0 & Eb & Ce). split.
  - intros (bs & locs & order & stores & trace & E1 & E2 & Po & E3 & It & E4). assert (bs0 = bs) by congruence. subst bs0. exists bs, order. split; [exact E1|]. split; [exact Po|].
    rewrite (locs_ok bs Ce) in E2. injection E2 as <-. destruct (result_core bs order Eb Ce Po) as (st & F1 & F2). rewrite F1 in E3. injection E3 as <-. rewrite (F2 trace It) in E4. injection E4 as <- <-. auto.
  - intros (bs & order & E1 & Po & -> & ->). assert (bs0 = bs) by congruence. subst bs0. destruct (result_core bs order Eb Ce Po) as (st & F1 & F2).
    exists bs, (map (fun b => (BI b, BM b)) bs), order, st, (concat st). split; [exact E1|]. split; [apply locs_ok; exact Ce|]. split; [exact Po|]. split; [exact F1|]. split; [apply interleaving_seq|]. apply F2, interleaving_seq.
Qed.
End Result.
