(** [partition_face] on a mesh without free slots. *)
From Coq Require Import List ZArith Lia Bool Permutation.
From Verif Require Import Vec VecLemmas HmeshModel HmeshSpec HmeshCore HmeshCyc HmeshFaces HmeshAdd HmeshRemove HmeshProps InputSpec InputProofs PartModel PartSpec PartOps PartRing.
Import ListNotations.
Open Scope Z_scope.
Ltac Zify.zify_post_hook ::= idtac.

Definition st (m : hmesh) (h : Z) : Z * Z :=
  (match source m h with Some s => s | None => null end, match target m h with Some t => t | None => null end).

Lemma arc_st m s t h : HInv m -> arc m s t h -> source m h = Some s /\ target m h = Some t /\ st m h = (s, t).
Proof.
  intros I A. apply (live_arc m h s t (proj1 I)) in A. destruct A as (L & S & T). split; [exact S|]. split; [exact T|]. unfold st. rewrite S, T. reflexivity.
Qed.

Lemma list_ext {A} (l : list A) : forall r, length l = length r -> (forall i x, nth_error l i = Some x -> nth_error r i = Some x) -> l = r.
Proof.
  induction l as [|a l IH]; intros [|b r] L H; try discriminate; [reflexivity|]. pose proof (H O a eq_refl) as E. injection E as ->. f_equal. apply IH; [cbn in L; lia|]. intros i x. exact (H (S i) x).
Qed.

Lemma rot_map {A B} (g : A -> B) l : rot (map g l) = map g (rot l).
Proof. destruct l as [|a l]; [reflexivity|]. cbn. rewrite map_app. reflexivity. Qed.
Lemma rot_length {A} (l : list A) : length (rot l) = length l.
Proof. destruct l; [reflexivity|]. cbn. rewrite app_length. cbn. lia. Qed.

(** half-edges of a face *)
Lemma face_hes m f r : HInv m -> rd m f r -> exists hs, get_halfedges_around_face m f = Some hs /\ NoDup hs /\ (3 <= length hs)%nat /\
  (forall h, In h hs -> arc m (fst (st m h)) (snd (st m h)) h /\ face m h = Some f) /\
  map (target m) hs = map Some r /\ map snd (map (st m) hs) = r /\ rot (map (st m) hs) = cyc_pairs r.
Proof.
  intros I [L E]. pose proof (HInv_consistent m I) as K. destruct (k_face m K f L) as (hs & Eh & L3 & Nh & Hf & Hc). exists hs. split; [exact Eh|]. split; [exact Nh|]. split; [exact L3|].
  assert (Ha : forall h, In h hs -> arc m (fst (st m h)) (snd (st m h)) h /\ face m h = Some f).
  { intros h Hh. destruct (Hf h Hh) as [Lh F]. split; [|exact F]. destruct (k_ends m K h Lh) as (a & b & Sa & Tb & _). apply live_arc; [apply I|]. unfold st. rewrite Sa, Tb. cbn. auto. }
  split; [exact Ha|]. unfold get_vertices_around_face in E. rewrite Eh in E. cbn [obind] in E. destruct (omap_nth _ _ _ E) as [Ll En].
  assert (T : map (target m) hs = map Some r).
  { apply list_ext; [rewrite !map_length; lia|]. intros i x. rewrite !nth_error_map. destruct (nth_error hs i) as [h|] eqn:Ei; [|discriminate]. cbn [option_map]. intros [= <-].
    rewrite (En i h Ei). destruct (nth_error r i) eqn:Er; [reflexivity|]. exfalso. apply nth_error_None in Er. assert (nth_error hs i <> None) by congruence. apply nth_error_Some in H. lia. }
  split; [exact T|]. split.
  - rewrite map_map. apply list_ext; [rewrite map_length; lia|]. intros i x. rewrite nth_error_map. destruct (nth_error hs i) as [h|] eqn:Ei; [|discriminate]. cbn [option_map]. intros [= <-].
    destruct (Ha h (nth_error_In _ _ Ei)) as [A _]. destruct (arc_st _ _ _ _ I A) as (_ & Tx & _). rewrite <- (En i h Ei). rewrite Tx. reflexivity.
  - rewrite rot_map. apply list_ext; [rewrite map_length, rot_length, cyc_pairs_length; lia|]. intros i x. rewrite nth_error_map.
    destruct (nth_error (rot hs) i) as [b|] eqn:Ei; [|discriminate]. cbn [option_map]. intros [= <-].
    assert (Li : (i < length hs)%nat). { rewrite <- (rot_length hs). apply nth_error_Some. congruence. }
    destruct (nth_error (cyc_pairs hs) i) as [[a b']|] eqn:Ep; [|exfalso; apply nth_error_None in Ep; rewrite cyc_pairs_length in Ep; lia].
    pose proof Ep as Ep2. apply cyc_nth in Ep2. destruct Ep2 as (H1 & H2 & _).
    assert (b' = b). { rewrite <- rot_rotate1, <- (proj2 (cyc_fst_snd hs)), nth_error_map, Ep in Ei. cbn in Ei. congruence. } subst b'.
    destruct (Hc a b (nth_error_In _ _ Ep)) as (_ & _ & Ts). apply cyc_nth. rewrite Ll.
    assert (Hb : In b hs) by (eapply nth_error_In; exact H2). destruct (Ha b Hb) as [A _]. destruct (arc_st _ _ _ _ I A) as (Sb & Tb & _).
    rewrite <- (En _ _ H1), <- (En _ _ H2), Ts, Sb, Tb. auto.
Qed.

Lemma sc_pairs r Q : same_cycle (cyc_pairs r) Q -> exists r', same_cycle r r' /\ Q = cyc_pairs r'.
Proof.
  intros H. apply (sc_ind (fun q => exists r', same_cycle r r' /\ q = cyc_pairs r')) with (a := cyc_pairs r); [|exact H|].
  - intros l (r' & S & ->). exists (rot r'). split; [eapply sc_trans; [exact S|apply sc_rot]|symmetry; apply cyc_rot].
  - exists r. split; [apply sc_refl|reflexivity].
Qed.

Lemma path_app x P Q z : path x (P ++ Q) z <-> exists y, path x P y /\ path y Q z.
Proof.
  revert x. induction P as [|p P IH]; intros x; cbn.
  - split; [intros H; exists x; auto|]. intros (y & -> & H). exact H.
  - rewrite IH. split; [intros (<- & y & A & B); exists y; auto|]. intros (y & (<- & A) & B). split; [reflexivity|]. exists y. auto.
Qed.
Lemma path_last x P z : path x P z -> exists l, x :: map snd P = l ++ [z].
Proof.
  revert x. induction P as [|p P IH]; intros x; cbn; [intros ->; exists []; reflexivity|]. intros [<- H]. destruct (IH _ H) as [l E]. exists (fst p :: l). cbn. rewrite E. reflexivity.
Qed.
Lemma path_conn_snd x P z : path x P z -> conn (x :: map snd P) = P.
Proof.
  revert x. induction P as [|p P IH]; intros x; cbn [path]; [reflexivity|]. intros [<- H]. cbn [map]. change (conn (fst p :: snd p :: map snd P)) with ((fst p, snd p) :: conn (snd p :: map snd P)).
  rewrite (IH _ H). destruct p. reflexivity.
Qed.

(** the cycle seen from its two cut edges *)
Lemma split_two {A} (hs : list A) i j x y : i <> j -> nth_error hs i = Some x -> nth_error hs j = Some y ->
  exists P Q, same_cycle hs (x :: P ++ y :: Q).
Proof.
  intros N Ei Ej. destruct (nth_error_split hs i Ei) as (X & Y & E & Li). subst hs.
  destruct (Nat.lt_ge_cases j i) as [H|H].
  - rewrite nth_error_app1 in Ej by lia. destruct (nth_error_split X j Ej) as (X1 & X2 & -> & _).
    exists (Y ++ X1), X2. exists (X1 ++ y :: X2), (x :: Y). split; [reflexivity|]. cbn. rewrite <- app_assoc. reflexivity.
  - rewrite nth_error_app2 in Ej by lia. destruct (j - length X)%nat as [|k] eqn:Ek; [lia|]. cbn in Ej. destruct (nth_error_split Y k Ej) as (Y1 & Y2 & -> & _).
    exists Y1, (Y2 ++ X). exists X, (x :: Y1 ++ y :: Y2). split; [reflexivity|]. cbn. rewrite <- app_assoc. reflexivity.
Qed.

Record two_parts (m : hmesh) (r hs : list Z) (h0 h1 s0 t0 s1 t1 : Z) (hA hB : list Z) : Prop := {
  tp_cyc : same_cycle hs (h0 :: hA ++ h1 :: hB);
  tp_h0 : st m h0 = (s0, t0); tp_h1 : st m h1 = (s1, t1);
  tp_pA : path t0 (map (st m) hA) s1; tp_pB : path t1 (map (st m) hB) s0;
  tp_ring : same_cycle r ((t0 :: map snd (map (st m) hA)) ++ (t1 :: map snd (map (st m) hB)));
  tp_nd : NoDup (s0 :: map fst (map (st m) hA) ++ s1 :: map fst (map (st m) hB)) }.

Lemma two_parts_exist m f r hs h0 h1 i j : HInv m -> rd m f r -> NoDup r -> get_halfedges_around_face m f = Some hs -> i <> j ->
  nth_error hs i = Some h0 -> nth_error hs j = Some h1 -> exists s0 t0 s1 t1 hA hB, two_parts m r hs h0 h1 s0 t0 s1 t1 hA hB.
Proof.
  intros I R Nr Eh N E0 E1. destruct (face_hes m f r I R) as (hs' & Eh' & Nh & L3 & Ha & _ & _ & Pr). assert (hs' = hs) by congruence. subst hs'.
  destruct (split_two hs i j h0 h1 N E0 E1) as (hA & hB & Sc). destruct (st m h0) as [s0 t0] eqn:Q0. destruct (st m h1) as [s1 t1] eqn:Q1.
  exists s0, t0, s1, t1, hA, hB.
  assert (Sq : same_cycle (cyc_pairs r) (map (st m) (h0 :: hA ++ h1 :: hB))).
  { rewrite <- Pr. eapply sc_trans; [apply sc_sym, sc_rot|]. apply sc_map, Sc. }
  destruct (sc_pairs r _ Sq) as (r' & Sr & Er). cbn [map] in Er. rewrite map_app in Er. cbn [map] in Er. rewrite Q0, Q1 in Er.
  destruct r' as [|x r']; [discriminate|].
  pose proof (path_conn x r' x) as Pt. rewrite <- cyc_conn, <- Er in Pt. cbn [path fst snd] in Pt. destruct Pt as [Ex Pt]. subst x.
  apply path_app in Pt. destruct Pt as (y & PA & PB). cbn [path fst snd] in PB. destruct PB as [Ey PB]. subst y.
  constructor; try assumption.
  - eapply sc_trans; [exact Sr|]. eapply sc_trans; [apply sc_rot|]. rewrite <- rot_rotate1, <- (proj2 (cyc_fst_snd (s0 :: r'))), <- Er. cbn [map snd]. rewrite map_app. cbn [map snd]. apply sc_refl.
  - assert (NoDup (s0 :: r')) by (eapply sc_NoDup; eassumption). rewrite <- (proj1 (cyc_fst_snd (s0 :: r'))), <- Er in H. cbn [map fst] in H. rewrite map_app in H. exact H.
Qed.

(** ** tracing a child *)
Lemma find_source_ok m l h s : In h l -> source m h = Some s ->
  (forall x, In x l -> exists y, source m x = Some y) -> (forall x, In x l -> source m x = Some s -> x = h) -> find_source m l s = Some h.
Proof.
  induction l as [|x l IH]; intros Hin Hs D U; [destruct Hin|]. cbn [find_source]. destruct (D x (or_introl eq_refl)) as [y Ey]. rewrite Ey. cbn [obind].
  destruct (Z.eqb_spec y s) as [->|N].
  - rewrite (U x (or_introl eq_refl) Ey). reflexivity.
  - destruct Hin as [->|Hin]; [congruence|]. apply IH; [exact Hin|exact Hs| |]; intros z Hz; [apply D|apply U]; right; exact Hz.
Qed.

Fixpoint hpath (m : hmesh) (bd : list Z) (stop h : Z) (l : list Z) : Prop :=
  match l with
  | [] => target m h = Some stop
  | n :: l' => exists t, target m h = Some t /\ t <> stop /\ find_source m bd t = Some n /\ hpath m bd stop n l'
  end.
Lemma trace_ok m bd stop l : forall h fuel, hpath m bd stop h l -> (length l < fuel)%nat -> trace_child fuel m bd stop h = Some (h :: l).
Proof.
  induction l as [|n l IH]; intros h [|fuel] H L; try (cbn in L; lia); cbn [trace_child]; cbn [hpath] in H.
  - rewrite H. cbn [obind]. rewrite Z.eqb_refl. reflexivity.
  - destruct H as (t & T & N & Fs & H). rewrite T. cbn [obind]. rewrite (proj2 (Z.eqb_neq _ _) N), Fs. cbn [obind]. rewrite (IH n fuel H); [reflexivity|]. cbn in L. lia.
Qed.

Lemma hpath_run m bd stop z a : forall hB h x,
  target m h = Some x -> path x (map (st m) hB) z -> (forall k, In k hB -> source m k = Some (fst (st m k)) /\ target m k = Some (snd (st m k))) ->
  x <> stop -> (forall k, In k hB -> snd (st m k) <> stop) ->
  (forall k, In k hB -> find_source m bd (fst (st m k)) = Some k) -> find_source m bd z = Some a -> target m a = Some stop ->
  hpath m bd stop h (hB ++ [a]).
Proof.
  induction hB as [|k hB IH]; intros h x T P D Nx Nk Fk Fa Ta; cbn [app hpath path map] in *.
  - subst x. exists z. auto.
  - destruct P as [E P]. exists x. split; [exact T|]. split; [exact Nx|]. split; [rewrite <- E; apply Fk; left; reflexivity|].
    apply (IH k (snd (st m k))); try assumption; [apply D; left; reflexivity| | | |]; try (intros; first [apply D|apply Nk|apply Fk]; right; assumption). apply Nk. left. reflexivity.
Qed.
