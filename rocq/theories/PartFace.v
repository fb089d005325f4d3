(** [partition_face], step by step. *)
From Coq Require Import List ZArith Lia Bool Permutation.
From Verif Require Import Vec VecLemmas HmeshModel HmeshSpec HmeshCore HmeshCyc HmeshFaces HmeshAdd HmeshRemove HmeshProps InputSpec InputProofs PartModel PartSpec PartOps PartRing PartMesh.
Import ListNotations.
Open Scope Z_scope.
Ltac Zify.zify_post_hook ::= idtac.

Lemma arc_lv m s t h : HInv m -> arc m s t h -> lv m s /\ lv m t /\ s <> t.
Proof.
  intros I A. apply (live_arc m h s t (proj1 I)) in A. destruct A as (L & S & T).
  destruct (k_ends m (HInv_consistent m I) h L) as (a & b & Sa & Tb & N & La & Lb & _). assert (a = s) by congruence. assert (b = t) by congruence. subst. auto.
Qed.
Lemma arc_range m s t h : W m -> arc m s t h -> 0 <= s < zlen (verts m) /\ 0 <= t < zlen (verts m) /\ s <> t.
Proof. intros Hw A. destruct (arc_lv m s t h (w_inv m Hw) A) as (A1 & A2 & A3). rewrite !w_lv in * by exact Hw. auto. Qed.

(** the ten pairs of the new edges *)
Definition newpair (n s0 t0 s1 t1 s t : Z) : Prop :=
  (s = n /\ t = n + 1) \/ (s = s0 /\ t = n) \/ (s = n /\ t = t0) \/ (s = s1 /\ t = n + 1) \/ (s = n + 1 /\ t = t1).

Lemma stage_edges m p0 p1 s0 t0 s1 t1 : W m -> lv m s0 -> lv m t0 -> lv m s1 -> lv m t1 -> s0 <> t0 -> s1 <> t1 ->
  let n := zlen (verts m) in
  exists m1 m2 hm m3 a0 m4 b0 m5 a1 m6 b1 m7,
    add_vertex m p0 = Some (n, m1) /\ add_vertex m1 p1 = Some (n + 1, m2) /\
    add_edge m2 n (n + 1) = Some (hm, m3) /\ add_edge m3 s0 n = Some (a0, m4) /\ add_edge m4 n t0 = Some (b0, m5) /\
    add_edge m5 s1 (n + 1) = Some (a1, m6) /\ add_edge m6 (n + 1) t1 = Some (b1, m7) /\
    W m7 /\ rf m7 = rf m /\ zlen (faces m7) = zlen (faces m) /\ zlen (verts m7) = n + 2 /\
    (forall f r, rd m7 f r <-> rd m f r) /\
    arc m7 n (n + 1) hm /\ arc m7 s0 n a0 /\ arc m7 n t0 b0 /\ arc m7 s1 (n + 1) a1 /\ arc m7 (n + 1) t1 b1 /\
    (forall s t x, arc m s t x -> arc m7 s t x) /\
    (forall s t x, arc m7 s t x -> arc m s t x \/ newpair n s0 t0 s1 t1 s t \/ newpair n s0 t0 s1 t1 t s) /\
    (forall v, 0 <= v < n -> option_map vpt (vget (verts m7) v) = option_map vpt (vget (verts m) v)) /\
    option_map vpt (vget (verts m7) n) = Some p0 /\ option_map vpt (vget (verts m7) (n + 1)) = Some p1.
Proof.
  intros Hw Ls0 Lt0 Ls1 Lt1 N0 N1 n. rewrite w_lv in Ls0, Lt0, Ls1, Lt1 by exact Hw. fold n in Ls0, Lt0, Ls1, Lt1.
  destruct (w_add_vertex m p0 Hw) as (m1 & E1 & W1 & F1 & FL1 & V1 & R1 & A1 & P1 & P1'). fold n in E1, V1, P1, P1'.
  destruct (w_add_vertex m1 p1 W1) as (m2 & E2 & W2 & F2 & FL2 & V2 & R2 & A2 & P2 & P2'). rewrite V1 in E2, V2, P2, P2'.
  assert (A02 : forall s t x, arc m2 s t x <-> arc m s t x) by (intros; rewrite A2, A1; reflexivity).
  assert (O2 : forall s t x, arc m2 s t x -> 0 <= s < n /\ 0 <= t < n). { intros s t x A. apply A02 in A. destruct (arc_range m s t x Hw A) as (X & Y & _). auto. }
  destruct (w_add_edge m2 n (n + 1) W2) as (hm & m3 & E3 & W3 & F3 & FL3 & V3 & R3 & A3 & I3 & O3 & P3).
  { apply w_lv; [exact W2|]; lia. } { apply w_lv; [exact W2|]; lia. } { lia. } { intros h A. apply O2 in A. lia. }
  assert (O3' : forall s t x, arc m3 s t x -> (0 <= s < n /\ 0 <= t < n) \/ (s = n /\ t = n + 1) \/ (s = n + 1 /\ t = n)).
  { intros s t x A. destruct (O3 s t x A) as [A'|A']; [left; exact (O2 s t x A')|right; exact A']. }
  destruct (w_add_edge m3 s0 n W3) as (a0 & m4 & E4 & W4 & F4 & FL4 & V4 & R4 & A4 & I4 & O4 & P4).
  { apply w_lv; [exact W3|]; lia. } { apply w_lv; [exact W3|]; lia. } { lia. } { intros h A. apply O3' in A. lia. }
  assert (O4' : forall s t x, arc m4 s t x -> (0 <= s < n /\ 0 <= t < n) \/ (s = n /\ t = n + 1) \/ (s = n + 1 /\ t = n) \/ (s = s0 /\ t = n) \/ (s = n /\ t = s0)).
  { intros s t x A. destruct (O4 s t x A) as [A'|A']; [apply O3' in A'|]; tauto. }
  destruct (w_add_edge m4 n t0 W4) as (b0 & m5 & E5 & W5 & F5 & FL5 & V5 & R5 & A5 & I5 & O5 & P5).
  { apply w_lv; [exact W4|]; lia. } { apply w_lv; [exact W4|]; lia. } { lia. } { intros h A. apply O4' in A. lia. }
  assert (O5' : forall s t x, arc m5 s t x -> (0 <= s < n /\ 0 <= t < n) \/ (s = n /\ t = n + 1) \/ (s = n + 1 /\ t = n) \/ s = n /\ t < n \/ t = n /\ s < n).
  { intros s t x A. destruct (O5 s t x A) as [A'|A']; [apply O4' in A'|]; lia. }
  destruct (w_add_edge m5 s1 (n + 1) W5) as (a1 & m6 & E6 & W6 & F6 & FL6 & V6 & R6 & A6 & I6 & O6 & P6).
  { apply w_lv; [exact W5|]; lia. } { apply w_lv; [exact W5|]; lia. } { lia. } { intros h A. apply O5' in A. lia. }
  destruct (w_add_edge m6 (n + 1) t1 W6) as (b1 & m7 & E7 & W7 & F7 & FL7 & V7 & R7 & A7 & I7 & O7 & P7).
  { apply w_lv; [exact W6|]; lia. } { apply w_lv; [exact W6|]; lia. } { lia. } { intros h A. apply O6 in A. destruct A as [A|A]; [apply O5' in A|]; lia. }
  exists m1, m2, hm, m3, a0, m4, b0, m5, a1, m6, b1, m7. do 7 (split; [assumption|]). split; [exact W7|]. split; [congruence|]. split; [congruence|]. split; [lia|].
  split; [intros f r; rewrite R7, R6, R5, R4, R3, R2, R1; reflexivity|].
  split; [auto 6|]. split; [auto|]. split; [auto|]. split; [auto|]. split; [exact A7|]. split; [intros s t x A; apply I7, I6, I5, I4, I3, A02, A|]. split; [|split; [|split]].
  - intros s t x A. unfold newpair. apply O7 in A. destruct A as [A|A]; [|tauto]. apply O6 in A. destruct A as [A|A]; [|tauto]. apply O5 in A. destruct A as [A|A]; [|tauto].
    apply O4 in A. destruct A as [A|A]; [|tauto]. apply O3 in A. destruct A as [A|A]; [|tauto]. left. apply A02, A.
  - intros v Rv. rewrite P7, P6, P5, P4, P3, P2, P1 by lia. reflexivity.
  - rewrite P7, P6, P5, P4, P3, P2 by lia. exact P1'.
  - rewrite P7, P6, P5, P4, P3. exact P2'.
Qed.

(** [add_face] when all its edges exist *)
Lemma w_add_face' m vi : W m -> (3 <= length vi)%nat -> NoDup vi -> (forall s t, In (s, t) (cyc_pairs vi) -> exists h, arc m s t h) ->
  (forall s t, In (s, t) (cyc_pairs vi) -> ~ used m s t) ->
  exists m', add_face' m vi = Some (next_slot m, m') /\ W m' /\
  rf m' = tl (rf m) /\ zlen (faces m') = next_len m /\ zlen (verts m') = zlen (verts m) /\
  (forall g r, rd m' g r <-> (g = next_slot m /\ r = rotate1 vi) \/ rd m g r) /\ ~ live_face m (next_slot m) /\
  (forall s t x, arc m' s t x <-> arc m s t x) /\
  (forall v, 0 <= v < zlen (verts m) -> option_map vpt (vget (verts m') v) = option_map vpt (vget (verts m) v)).
Proof.
  intros Hw L3 Nd Ha Nu. pose proof (w_inv m Hw) as I.
  assert (Lv : forall v, In v vi -> lv m v). { intros v Hv. destruct (cyc_all_fst vi v Hv) as [t Ht]. destruct (Ha v t Ht) as [h A]. apply (arc_lv m v t h I A). }
  destruct (w_add_face m vi Hw L3 Nd Lv Nu) as (m' & E & W' & Rf & Fl & Vl & Rd & Nl & A1 & A2 & P). exists m'.
  split; [unfold add_face'; rewrite E; reflexivity|]. split; [exact W'|]. split; [exact Rf|]. split; [exact Fl|]. split; [exact Vl|]. split; [exact Rd|]. split; [exact Nl|]. split.
  - intros s t x. split; [|apply A1]. intros A. destruct (A2 s t x A) as [A'|[Hp|Hp]]; [exact A'| |].
    + destruct (Ha s t Hp) as [y Ay]. rewrite (w_simple m' W' s t x y A (A1 _ _ _ Ay)). exact Ay.
    + destruct (Ha t s Hp) as [y Ay]. apply (arc_opp m t s y (proj1 I)) in Ay. rewrite (w_simple m' W' s t x (opposite y) A (A1 _ _ _ Ay)). exact Ay.
  - intros v Rv. apply P. apply w_lv; assumption.
Qed.

Lemma tl_nil_app {A} (l : list A) x : l = [] -> tl (l ++ [x]) = []. Proof. intros ->. reflexivity. Qed.

(** ** the neighbours *)
Section Retrace.
Variables (mo m7 : hmesh) (n s0 t0 s1 t1 h0 h1 a0 b0 a1 b1 f : Z).
Hypothesis W7 : W m7.
Hypothesis n0 : 0 <= n.
Hypothesis Ah0 : arc m7 s0 t0 h0.
Hypothesis Ah1 : arc m7 s1 t1 h1.
Hypothesis Aa0 : arc m7 s0 n a0.
Hypothesis Ab0 : arc m7 n t0 b0.
Hypothesis Aa1 : arc m7 s1 (n + 1) a1.
Hypothesis Ab1 : arc m7 (n + 1) t1 b1.
Hypothesis N01 : (s0, t0) <> (s1, t1).
Hypothesis Old : forall g r, rd m7 g r -> forall v, In v r -> 0 <= v < n.
Hypothesis Own0 : forall g r, rd m7 g r -> In (s0, t0) (cyc_pairs r) -> g = f.
Hypothesis Own1 : forall g r, rd m7 g r -> In (s1, t1) (cyc_pairs r) -> g = f.

Definition sub7 (r : list Z) : list Z := subdivide t0 s0 n t1 s1 (n + 1) r.
Definition step7 := retrace (edge_of h0) a0 b0 (edge_of h1) a1 b1.

(** state during the loop: the faces in [done] have been retraced *)
Record mid (done : list Z) (m : hmesh) : Prop := {
  md_w : W m; md_rf : rf m = []; md_fl : zlen (faces m) = zlen (faces m7); md_vl : zlen (verts m) = zlen (verts m7);
  md_arc : forall s t x, arc m s t x <-> arc m7 s t x;
  md_done : forall g r, In g done -> rd m g r -> exists r0, rd m7 g r0 /\ same_cycle (sub7 r0) r;
  md_done' : forall g r0, In g done -> rd m7 g r0 -> exists r, rd m g r /\ same_cycle (sub7 r0) r;
  md_other : forall g r, ~ In g done -> (rd m g r <-> rd m7 g r);
  md_pt : forall v, 0 <= v < zlen (verts m7) -> option_map vpt (vget (verts m) v) = option_map vpt (vget (verts m7) v) }.

Lemma edge_arcs s t h h' : arc m7 s t h -> edge_of h' = edge_of h -> forall x y, arc m7 x y h' -> (x, y) = (s, t) \/ (x, y) = (t, s).
Proof.
  intros A E x y A'. unfold edge_of in E. destruct (Z.eq_dec h' h) as [->|N].
  - destruct (arc_fun m7 s t x y h A A') as [-> ->]. auto.
  - pose proof (same_edge h h' (eq_sym E) (fun K => N (eq_sym K))) as ->. pose proof (arc_opp m7 s t h (proj1 (w_inv _ W7)) A) as A2. destruct (arc_fun m7 t s x y _ A2 A') as [-> ->]. auto.
Qed.

Lemma arc_edge s t h x y h' : arc m7 s t h -> arc m7 x y h' -> (x, y) = (s, t) \/ (x, y) = (t, s) -> edge_of h' = edge_of h.
Proof.
  intros A A' [E|E]; injection E as -> ->.
  - rewrite (w_simple m7 W7 s t h' h A' A). reflexivity.
  - pose proof (arc_opp m7 s t h (proj1 (w_inv _ W7)) A) as A2. rewrite (w_simple m7 W7 t s h' _ A' A2). unfold edge_of. apply opposite_div.
Qed.

Lemma target_arc m s t h : W m -> arc m s t h -> target m h = Some t.
Proof. intros Hw A. apply (arc_st m s t h (w_inv m Hw) A). Qed.

(** the vertices of the retraced face *)
Lemma retraced_vertices m g r hs : W m -> (forall s t x, arc m s t x <-> arc m7 s t x) -> rd m7 g r -> g <> f -> get_halfedges_around_face m7 g = Some hs ->
  exists vi, omap (target m) (flat_map (retrace_he (edge_of h0) a0 b0 (edge_of h1) a1 b1) hs) = Some vi /\ same_cycle (sub7 r) vi.
Proof.
  intros Hw Am R Ng Eh. pose proof (w_inv m7 W7) as I7. destruct (face_hes m7 g r I7 R) as (hs' & Eh' & Nh & L3 & Ha & _ & Sn & Pr). assert (hs' = hs) by congruence. subst hs'.
  set (gg := fun p : Z * Z => ins t0 s0 n t1 s1 (n + 1) p ++ [snd p]).
  assert (Q : omap (target m) (flat_map (retrace_he (edge_of h0) a0 b0 (edge_of h1) a1 b1) hs) = Some (flat_map gg (map (st m7) hs))).
  { assert (Hp : forall h, In h hs -> arc m7 (fst (st m7 h)) (snd (st m7 h)) h /\ In (st m7 h) (cyc_pairs r)).
    { intros h Hh. split; [apply Ha; exact Hh|]. rewrite <- Pr, rot_map. apply in_map. apply (sc_In hs (rot hs)); [apply sc_rot|exact Hh]. }
    clear Pr Sn Nh L3 Eh Eh' Ha. revert Hp. induction hs as [|h hs IH]; intros Hp; [reflexivity|]. cbn [flat_map map].
    assert (IH' := IH (fun x Hx => Hp x (or_intror Hx))). clear IH.
    destruct (Hp h (or_introl eq_refl)) as [A Hin]. destruct (st m7 h) as [x y] eqn:Es. cbn [fst snd] in A.
    assert (App : forall l1 l2 r1 r2, omap (target m) l1 = Some r1 -> omap (target m) l2 = Some r2 -> omap (target m) (l1 ++ l2) = Some (r1 ++ r2)).
    { clear. induction l1 as [|k l1 IH]; intros l2 r1 r2 H1 H2; cbn in *; [injection H1 as <-; exact H2|]. destruct (target m k); cbn in *; [|discriminate]. destruct (omap (target m) l1) eqn:E; cbn in *; [|discriminate]. injection H1 as <-.
      rewrite (IH l2 l r2 eq_refl H2). reflexivity. }
    apply App; [|exact IH']. unfold retrace_he, gg, ins. cbn [fst snd].
    assert (T1 : forall s t k, arc m7 s t k -> target m (opposite k) = Some s). { intros s t k B. apply (target_arc m t s _ Hw). apply Am. apply arc_opp; [apply I7|exact B]. }
    destruct (Z.eqb_spec (edge_of h) (edge_of h0)) as [E0|E0].
    - destruct (edge_arcs s0 t0 h0 h Ah0 E0 x y A) as [K|K]; injection K as -> ->; [exfalso; apply Ng; exact (Own0 g r R Hin)|].
      rewrite !Z.eqb_refl. cbn [andb app omap]. rewrite (T1 _ _ _ Ab0), (T1 _ _ _ Aa0). reflexivity.
    - assert (K0 : (x =? t0) && (y =? s0) = false).
      { destruct (Z.eqb_spec x t0) as [->|]; [|reflexivity]. destruct (Z.eqb_spec y s0) as [->|]; [|reflexivity]. exfalso. apply E0. eapply arc_edge; [exact Ah0|exact A|]. auto. }
      rewrite K0. destruct (Z.eqb_spec (edge_of h) (edge_of h1)) as [E1|E1].
      + destruct (edge_arcs s1 t1 h1 h Ah1 E1 x y A) as [K|K]; injection K as -> ->; [exfalso; apply Ng; exact (Own1 g r R Hin)|].
        rewrite !Z.eqb_refl. cbn [andb app omap]. rewrite (T1 _ _ _ Ab1), (T1 _ _ _ Aa1). reflexivity.
      + assert (K1 : (x =? t1) && (y =? s1) = false).
        { destruct (Z.eqb_spec x t1) as [->|]; [|reflexivity]. destruct (Z.eqb_spec y s1) as [->|]; [|reflexivity]. exfalso. apply E1. eapply arc_edge; [exact Ah1|exact A|]. auto. }
        rewrite K1. cbn [andb app omap]. rewrite (target_arc m x y h Hw (proj2 (Am _ _ _) A)). reflexivity. }
  exists (flat_map gg (map (st m7) hs)). split; [exact Q|].
  unfold sub7. rewrite subdivide_flat. rewrite <- Pr. destruct hs as [|k hs]; [cbn in L3; lia|].
  apply sc_trans with (flat_map (fun p => fst p :: ins t0 s0 n t1 s1 (n + 1) p) (map (st m7) (k :: hs))); [apply sc_flat, sc_sym, sc_rot|].
  (* path around *)
  assert (Pt : path (fst (st m7 k)) (map (st m7) (k :: hs)) (fst (st m7 k))).
  { pose proof (sc_pairs r (map (st m7) (k :: hs))) as K. destruct K as (r' & _ & Er); [rewrite <- Pr; apply sc_sym, sc_rot|].
    destruct r' as [|x r']; [discriminate|]. rewrite Er, cyc_conn. cbn [map] in Er. rewrite cyc_conn in Er. assert (fst (st m7 k) = x); [|subst x; apply path_conn].
    apply (f_equal (hd (0, 0))) in Er. cbn [hd] in Er. rewrite Er. destruct r' as [|y r']; reflexivity. }
  pose proof (path_shift t0 s0 n t1 s1 (n + 1) _ _ _ Pt) as Sh. fold gg in Sh.
  set (G := flat_map gg (map (st m7) (k :: hs))) in *. clearbody G.
  set (F := flat_map (fun p => fst p :: ins t0 s0 n t1 s1 (n + 1) p) (map (st m7) (k :: hs))) in *.
  assert (HF : exists F', F = fst (st m7 k) :: F') by (eexists; reflexivity). destruct HF as [F' EF]. rewrite EF in Sh |- *. cbn [app] in Sh. injection Sh as Sh. rewrite <- Sh.
  exists [fst (st m7 k)], F'. auto.
Qed.

Lemma sub7_pairs r s t : (1 <= length r)%nat ->
  (In (s, t) (cyc_pairs (sub7 r)) <->
   (In (s, t) (cyc_pairs r) /\ (s, t) <> (t0, s0) /\ (s, t) <> (t1, s1)) \/
   (In (t0, s0) (cyc_pairs r) /\ ((s, t) = (t0, n) \/ (s, t) = (n, s0))) \/
   (In (t1, s1) (cyc_pairs r) /\ ((s, t) = (t1, n + 1) \/ (s, t) = (n + 1, s1)))).
Proof. intros L. apply In_subdivide_pairs; [exact L|]. intros E. injection E as -> ->. apply N01. reflexivity. Qed.

Lemma rd_len3 m g r : W m -> rd m g r -> (3 <= length r)%nat.
Proof.
  intros Hw R. destruct (face_hes m g r (w_inv m Hw) R) as (hs & _ & _ & L3 & _ & _ & Sn & _). rewrite <- Sn, !map_length. exact L3.
Qed.

Lemma used_unique m g r g' r' s t : W m -> rd m g r -> rd m g' r' -> In (s, t) (cyc_pairs r) -> In (s, t) (cyc_pairs r') -> g = g'.
Proof.
  intros Hw R R' H H'. destruct (used_arc m s t (w_inv m Hw)) as [h A]; [exists g, r; auto|].
  destruct (proj2 (arc_face m s t h g r Hw A) (conj R H)) as (F & _). destruct (proj2 (arc_face m s t h g' r' Hw A) (conj R' H')) as (F' & _). congruence.
Qed.

Lemma sub7_nodup g r : rd m7 g r -> NoDup (sub7 r).
Proof.
  intros R. apply NoDup_subdivide; [lia| | |exact (w_nd m7 W7 g r R)]; intros K; apply (Old g r R) in K; lia.
Qed.

Lemma one_neighbour done m g hs r : mid done m -> ~ In g done -> g <> f -> rd m7 g r -> get_halfedges_around_face m7 g = Some hs ->
  exists m', step7 m (g, hs) = Some m' /\ mid (g :: done) m'.
Proof.
  intros M Nd Ng R Eh. destruct M as [Wm Rf Fl Vl Am Dn Dn' Ot Pt]. pose proof (proj2 (Ot g r Nd) R) as Rm.
  destruct (w_remove_face m g Wm (proj1 Rm)) as (m1 & E1 & W1 & Rf1 & Fl1 & Vl1 & Rd1 & A1 & P1).
  assert (Am1 : forall s t x, arc m1 s t x <-> arc m7 s t x) by (intros; rewrite A1; apply Am).
  destruct (retraced_vertices m1 g r hs W1 Am1 R Ng Eh) as (vi & Ev & Sc).
  pose proof (rd_len3 m7 g r W7 R) as L3.
  assert (Pr : forall s t, In (s, t) (cyc_pairs vi) <-> In (s, t) (cyc_pairs (sub7 r))) by (intros; symmetry; apply sc_In, sc_cyc, Sc).
  assert (Nt : n <> t0 /\ n <> s0 /\ n + 1 <> t1 /\ n + 1 <> s1).
  { destruct (arc_range m7 _ _ _ W7 Aa0) as (_ & _ & K1). destruct (arc_range m7 _ _ _ W7 Ab0) as (_ & _ & K2). destruct (arc_range m7 _ _ _ W7 Aa1) as (_ & _ & K3). destruct (arc_range m7 _ _ _ W7 Ab1) as (_ & _ & K4). auto. }
  assert (Arc : forall s t, In (s, t) (cyc_pairs vi) -> exists h, arc m1 s t h).
  { intros s t Hin. apply Pr in Hin. apply sub7_pairs in Hin; [|lia].
    destruct Hin as [(Hin & _)|[(_ & [E|E])|(_ & [E|E])]]; try (injection E as -> ->).
    - destruct (used_arc m7 s t (w_inv m7 W7)) as [h A]; [exists g, r; auto|]. exists h. apply Am1, A.
    - exists (opposite b0). apply Am1. apply arc_opp; [apply (w_inv _ W7)|exact Ab0].
    - exists (opposite a0). apply Am1. apply arc_opp; [apply (w_inv _ W7)|exact Aa0].
    - exists (opposite b1). apply Am1. apply arc_opp; [apply (w_inv _ W7)|exact Ab1].
    - exists (opposite a1). apply Am1. apply arc_opp; [apply (w_inv _ W7)|exact Aa1]. }
  assert (Nu : forall s t, In (s, t) (cyc_pairs vi) -> ~ used m1 s t).
  { intros s t Hin (g' & r' & R' & Hin'). apply Rd1 in R'. destruct R' as [R' Ng']. apply Pr in Hin. apply sub7_pairs in Hin; [|lia].
    assert (In7 : exists r7, rd m7 g' r7 /\ (In (s, t) (cyc_pairs r7) \/ ((s, t) = (t0, n) \/ (s, t) = (n, s0)) /\ In (t0, s0) (cyc_pairs r7) \/ ((s, t) = (t1, n + 1) \/ (s, t) = (n + 1, s1)) /\ In (t1, s1) (cyc_pairs r7))).
    { destruct (in_dec Z.eq_dec g' done) as [D|D].
      - destruct (Dn g' r' D R') as (r7 & R7 & S7). exists r7. split; [exact R7|]. apply (sc_In _ _ (s, t) (sc_cyc _ _ S7)) in Hin'. apply sub7_pairs in Hin'; [tauto|]. pose proof (rd_len3 m7 g' r7 W7 R7). lia.
      - exists r'. split; [apply Ot; assumption|]. left. exact Hin'. }
    destruct In7 as (r7 & R7 & K). assert (Ngg : g <> g') by congruence.
    assert (X : forall x y, In (x, y) (cyc_pairs r) -> In (x, y) (cyc_pairs r7) -> False). { intros x y H1 H2. apply Ngg. exact (used_unique m7 g r g' r7 x y W7 R R7 H1 H2). }
    assert (Y : forall x y q gg, rd m7 gg q -> In (x, y) (cyc_pairs q) -> 0 <= x < n /\ 0 <= y < n). { intros x y q gg Rq Hq. apply cyc_In in Hq. split; apply (Old gg q Rq); tauto. }
    assert (V0 : 0 <= t0 < n -> 0 <= t1 < n -> 0 <= s0 < n -> 0 <= s1 < n -> True) by auto.
    destruct Hin as [(Hin & _)|[(Hin & E)|(Hin & E)]]; destruct K as [K|[(E' & K)|(E' & K)]].
    - exact (X _ _ Hin K).
    - destruct (Y _ _ _ _ R Hin). destruct E' as [E'|E']; injection E' as -> ->; lia.
    - destruct (Y _ _ _ _ R Hin). destruct E' as [E'|E']; injection E' as -> ->; lia.
    - destruct (Y _ _ _ _ R7 K). destruct E as [E|E]; injection E as -> ->; lia.
    - exact (X _ _ Hin K).
    - destruct (Y _ _ _ _ R Hin). destruct (Y _ _ _ _ R7 K). destruct E as [E|E]; destruct E' as [E'|E']; rewrite E' in E; injection E as E1' E2'; lia.
    - destruct (Y _ _ _ _ R7 K). destruct E as [E|E]; injection E as -> ->; lia.
    - destruct (Y _ _ _ _ R Hin). destruct (Y _ _ _ _ R7 K). destruct E as [E|E]; destruct E' as [E'|E']; rewrite E' in E; injection E as E1' E2'; lia.
    - exact (X _ _ Hin K). }
  assert (L3' : (3 <= length vi)%nat). { rewrite <- (sc_length _ _ Sc). pose proof (subdivide_len t0 s0 n t1 s1 (n + 1) r). unfold sub7. lia. }
  destruct (w_add_face' m1 vi W1 L3' (sc_NoDup _ _ Sc (sub7_nodup g r R)) Arc Nu) as (m2 & E2 & W2 & Rf2 & Fl2 & Vl2 & Rd2 & Nl2 & A2 & P2).
  assert (Sl : next_slot m1 = g /\ next_len m1 = zlen (faces m1) /\ rf m2 = []). { unfold next_slot, next_len. rewrite Rf2, Rf1, Rf. auto. } destruct Sl as (Sl & Nl & Rfm2). rewrite Sl in *.
  exists m2. split.
  { unfold step7, retrace. cbn [fst snd]. rewrite E1. cbn [obind]. rewrite Ev. cbn [obind]. rewrite E2. reflexivity. }
  constructor.
  - exact W2.
  - exact Rfm2.
  - congruence.
  - congruence.
  - intros s t x. rewrite A2. apply Am1.
  - intros g' r' [<-|D] R'; apply Rd2 in R'; destruct R' as [[Eg ->]|R'].
    + exists r. split; [exact R|]. eapply sc_trans; [exact Sc|apply sc_rot].
    + apply Rd1 in R'. destruct R'; congruence.
    + subst g'. contradiction.
    + apply Rd1 in R'. apply (Dn g' r' D). apply R'.
  - intros g' r' [<-|D] R'.
    + exists (rotate1 vi). split; [apply Rd2; left; auto|]. rewrite (rd_fun _ _ _ _ R' R). eapply sc_trans; [exact Sc|apply sc_rot].
    + destruct (Dn' g' r' D R') as (r2 & R2 & S2). exists r2. split; [|exact S2]. apply Rd2. right. apply Rd1. split; [exact R2|]. intros ->. contradiction.
  - intros g' r' N'. assert (Nn : ~ In g' done) by (intros K; apply N'; right; exact K). rewrite Rd2, Rd1, (Ot g' r' Nn). split.
    + intros [[-> _]|[K _]]; [exfalso; apply N'; left; reflexivity|exact K].
    + intros K. right. split; [exact K|]. intros ->. apply N'. left. reflexivity.
  - intros v Rv. rewrite P2 by lia. rewrite P1. apply Pt. exact Rv.
Qed.

Lemma all_neighbours l : forall done m, mid done m -> NoDup (map fst l) -> (forall x, In x (map fst l) -> ~ In x done /\ x <> f /\ live_face m7 x) ->
  (forall x hs, In (x, hs) l -> get_halfedges_around_face m7 x = Some hs) ->
  exists m', ofold step7 l m = Some m' /\ mid (rev (map fst l) ++ done) m'.
Proof.
  induction l as [|(g, hs) l IH]; intros done m M Nd Hl Hh; cbn [ofold map rev app]; [exists m; auto|].
  destruct (Hl g (or_introl eq_refl)) as (N1 & N2 & Lg). destruct (rd_total m7 g (w_inv m7 W7) Lg) as [r R].
  destruct (one_neighbour done m g hs r M N1 N2 R (Hh g hs (or_introl eq_refl))) as (m1 & E1 & M1). rewrite E1. cbn [obind].
  inversion Nd as [|? ? Na Nb]; subst. destruct (IH (g :: done) m1 M1 Nb) as (m2 & E2 & M2).
  - intros x Hx. destruct (Hl x (or_intror Hx)) as (X1 & X2 & X3). split; [|auto]. intros [<-|K]; [exact (Na Hx)|exact (X1 K)].
  - intros x y Hx. apply Hh. right. exact Hx.
  - exists m2. split; [exact E2|]. cbn [fst]. rewrite <- app_assoc. exact M2.
Qed.
End Retrace.
