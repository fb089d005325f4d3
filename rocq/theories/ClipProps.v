(** C68: the faces that are cut are replaced by the polygons into which the cuts divide them. *)
From Coq Require Import List Arith Bool Lia Permutation.
From Verif Require Import CutModel ClipModel ClipSpec ClipInv ClipProofs ClipFace ClipStart.
Import ListNotations.

(** std::partition as libstdc++ has it for bidirectional iterators (bits/stl_algo.h, __partition): the first element without the property is exchanged with the last
    that has it, then the same between the two *)
Fixpoint split_last (p : nat -> bool) (l : list nat) : option (list nat * nat * list nat) :=
  match l with
  | [] => None
  | x :: r => match split_last p r with Some (m, y, s) => Some (x :: m, y, s) | None => if p x then Some ([], x, r) else None end
  end.
Fixpoint gnu (fuel : nat) (p : nat -> bool) (l : list nat) : list nat :=
  match fuel, l with
  | S fuel', x :: r => if p x then x :: gnu fuel' p r else match split_last p r with Some (m, y, s) => y :: gnu fuel' p m ++ x :: s | None => l end
  | _, _ => l
  end.
Definition gnu_partition (p : nat -> bool) (l : list nat) : list nat := gnu (length l) p l.

Lemma split_last_some p l m y s : split_last p l = Some (m, y, s) -> l = m ++ y :: s /\ p y = true /\ forall x, In x s -> p x = false.
Proof.
  assert (N : forall l, split_last p l = None -> forall x, In x l -> p x = false).
  { clear. induction l as [|x r IH]; intros E z I; [destruct I|]. cbn in E. destruct (split_last p r) as [((m & y) & s)|]; [discriminate|]. destruct (p x) eqn:P; [discriminate|]. destruct I as [<-|I]; [exact P|apply IH; auto]. }
  revert m y s. induction l as [|x r IH]; intros m y s E; [discriminate|]. cbn in E. destruct (split_last p r) as [((m' & y') & s')|] eqn:ER.
  - injection E as <- <- <-. destruct (IH _ _ _ eq_refl) as (-> & P & S). auto.
  - destruct (p x) eqn:P; [|discriminate]. injection E as <- <- <-. split; [reflexivity|]. split; [exact P|]. apply N, ER.
Qed.
Lemma split_last_none p l : split_last p l = None -> forall x, In x l -> p x = false.
Proof. induction l as [|x r IH]; intros E z I; [destruct I|]. cbn in E. destruct (split_last p r) as [((m & y) & s)|]; [discriminate|]. destruct (p x) eqn:P; [discriminate|]. destruct I as [<-|I]; [exact P|apply IH; auto]. Qed.
Lemma gnu_ok fuel p l : length l <= fuel -> Permutation (gnu fuel p l) l /\ exists A B, gnu fuel p l = A ++ B /\ (forall x, In x A -> p x = true) /\ (forall x, In x B -> p x = false).
Proof.
  revert l. induction fuel as [|fuel IH]; intros l L; [destruct l; [|cbn in L; lia]; split; [constructor|exists [], []; split; [reflexivity|split; intros ? []]]|].
  destruct l as [|x r]; [split; [constructor|exists [], []; split; [reflexivity|split; intros ? []]]|]. cbn in L. cbn [gnu]. destruct (p x) eqn:P.
  - destruct (IH r ltac:(lia)) as (IP & A & B & E & HA & HB). split; [constructor; exact IP|]. exists (x :: A), B. rewrite E. split; [reflexivity|]. split; [intros z [<-|I]; auto|exact HB].
  - destruct (split_last p r) as [((m & y) & s)|] eqn:ES.
    + destruct (split_last_some _ _ _ _ _ ES) as (-> & Py & Ps). rewrite app_length in L. cbn in L. destruct (IH m ltac:(lia)) as (IP & A & B & E & HA & HB). split.
      * rewrite IP. rewrite <- (Permutation_middle m s y). rewrite <- (Permutation_middle m s x). apply perm_swap.
      * exists (y :: A), (B ++ x :: s). rewrite E. split; [cbn; rewrite <- app_assoc; reflexivity|]. split; [intros z [<-|I]; auto|]. intros z I. apply in_app_or in I. destruct I as [I|[<-|I]]; auto.
    + split; [reflexivity|]. exists [], (x :: r). split; [reflexivity|]. split; [intros ? []|]. intros z [<-|I]; [exact P|]. apply (split_last_none _ _ ES z I).
Qed.
Theorem C68_gnu_conforming : conforming gnu_partition.
Proof. intros p l. apply gnu_ok. reflexivity. Qed.

Section C68.
(** the meshes and the tables, see ClipModel *)
Variable seg : nat -> nat * nat.
Notation src := (src seg). Notation tgt := (tgt seg).
Variables (psrc ptgt : nat -> nat) (pface : nat -> option nat) (ps_halfedge : nat -> nat -> option nat) (registry : list (nat * nat)) (cnt : nat) (pieces : list (nat * list nat)).

(** The point v is an intersection point on the edge e of an input mesh. *)
Definition crossing (v e : nat) : Prop := cnt <= v /\ exists g, nth_error registry (v - cnt) = Some (e, g).
(** The side ph of the face f is divided into hs at the intersection points on it; the tables say so. *)
Record divided (f ph : nat) (hs : list nat) : Prop := {
  d_path : path src tgt (psrc ph) hs (ptgt ph);
  d_nonempty : hs <> [];
  d_simple : NoDup (map src hs);
  d_face : pface ph = Some f;
  d_other : pface (opp ph) <> Some f;
  d_ends : psrc ph < cnt /\ ptgt ph < cnt /\ psrc ph <> ptgt ph;
  d_points : forall v, In v (tl (map src hs)) -> crossing v (edge ph);
  d_whole : length hs = 1 -> ps_halfedge (psrc ph) (ptgt ph) = Some ph /\ forall o, ps_halfedge (ptgt ph) (psrc ph) = Some o -> o = opp ph;
  d_pieces : 3 <= length hs -> lookup pieces (edge ph) = Some (map edge hs) \/ lookup pieces (edge ph) = Some (rev (map edge hs)) }.
(** The face f with the given sides is divided into the polygons by the cuts; edges lists the edges on its sides and the cuts. *)
Record divided_face (f : nat) (sides : list (nat * list nat)) (cuts mouths : list nat) (polygons : list (list nat)) (edges : list nat) : Prop := {
  df_sides : forall ph hs, In (ph, hs) sides -> divided f ph hs;
  df_3 : 3 <= length sides;
  df_ring : ring src tgt (concat (map snd sides));
  df_cuts : forall h, In h cuts -> exists e e', crossing (src h) e /\ crossing (tgt h) e' /\ e <> e';
  df_polygons : clipped src tgt opp (concat (map snd sides)) polygons cuts mouths;
  df_size : forall P, In P polygons -> 3 <= length P;
  df_edges : Permutation edges (map edge (concat (map snd sides) ++ cuts));
  df_nodup : NoDup edges }.

Notation clip := (clip seg psrc pface ps_halfedge registry cnt pieces).

Section Proof.
Variables (f : nat) (sides : list (nat * list nat)) (cuts mouths : list nat) (polygons : list (list nat)) (edges : list nat).
Hypothesis DF : divided_face f sides cuts mouths polygons edges.
Notation around := (concat (map snd sides)).
Lemma crossing_edge v e : crossing v e -> registry_edge registry cnt v = Some e.
Proof. intros (L & g & E). unfold registry_edge. apply Nat.leb_le in L. rewrite L, E. reflexivity. Qed.
Lemma is_side ph hs : In (ph, hs) sides -> side seg psrc ptgt pface ps_halfedge registry cnt pieces f ph hs.
Proof. intros I. destruct (df_sides _ _ _ _ _ _ DF ph hs I) as [D1 D2 D3 D4 D5 D6 D7 D8 D9]. constructor; try assumption. intros v Iv. apply crossing_edge, D7, Iv. Qed.
Lemma sides_boundary h : In h around -> is_boundary seg registry cnt (edge h) = true.
Proof.
  intros I. assert (K : ivtx cnt (src h) && ivtx cnt (tgt h) = true -> registry_edge registry cnt (src h) = registry_edge registry cnt (tgt h)).
  { intros K. apply andb_prop in K. destruct K as [K1 K2]. destruct (kinds sides h I) as [(ph & V & IV)|[(ph & U & IU & N)|(ph & U & V & IUV & NU & NV)]].
    - pose proof (leading_orig seg psrc ptgt pface ps_halfedge registry cnt pieces f sides is_side h (ex_intro _ ph (ex_intro _ V IV))) as O. rewrite (ivtx_orig cnt _ O) in K1. discriminate.
    - pose proof (is_side _ _ IU) as S. rewrite (proj1 (side_tgt _ _ _ _ _ _ _ _ _ _ _ S U h [] eq_refl) eq_refl) in K2. destruct (s_ends _ _ _ _ _ _ _ _ _ _ _ S) as (_ & O & _). rewrite (ivtx_orig cnt _ O) in K2. discriminate.
    - pose proof (is_side _ _ IUV) as S. rewrite (proj2 (side_tgt _ _ _ _ _ _ _ _ _ _ _ S U h V eq_refl) NV), (proj2 (side_src _ _ _ _ _ _ _ _ _ _ _ S U h V eq_refl) NU). reflexivity. }
  unfold is_boundary. destruct (halfedge_cases h) as [E|E].
  - rewrite <- E. rewrite andb_comm. destruct (ivtx cnt (src h) && ivtx cnt (tgt h)); [|reflexivity]. apply eqo_iff. symmetry. auto.
  - assert (EO : 2 * edge h = opp h) by (rewrite E at 2; rewrite (proj2 (opp_2 (edge h))); reflexivity). rewrite EO, src_opp, tgt_opp. destruct (ivtx cnt (src h) && ivtx cnt (tgt h)); [|reflexivity]. apply eqo_iff. auto.
Qed.
Lemma cuts_inside h : In h cuts -> is_boundary seg registry cnt (edge h) = false.
Proof.
  intros I. destruct (df_cuts _ _ _ _ _ _ DF h I) as (e & e' & C & C' & N). pose proof (crossing_edge _ _ C) as R. pose proof (crossing_edge _ _ C') as R'. pose proof (registry_ivtx _ _ _ _ R) as V. pose proof (registry_ivtx _ _ _ _ R') as V'.
  assert (NE : forall a c, a <> c -> eqo (Some a) (Some c) = false) by (intros a c K; cbn; apply Nat.eqb_neq, K).
  unfold is_boundary. destruct (halfedge_cases h) as [E|E].
  - rewrite <- E, V, V', R, R'. cbn [andb]. apply NE. congruence.
  - assert (EO : 2 * edge h = opp h) by (rewrite E at 2; rewrite (proj2 (opp_2 (edge h))); reflexivity). rewrite EO, src_opp, tgt_opp, V, V', R, R'. cbn [andb]. apply NE. congruence.
Qed.
Lemma around_3 : 3 <= length around.
Proof.
  pose proof (df_3 _ _ _ _ _ _ DF) as L. assert (N : forall ph hs, In (ph, hs) sides -> hs <> []) by (intros ph hs I; apply (d_nonempty _ _ _ (df_sides _ _ _ _ _ _ DF ph hs I))). clear - L N.
  enough (length sides <= length around) by lia. clear L. induction sides as [|(ph & hs) l IH]; [constructor|]. cbn [map concat length snd]. rewrite app_length. assert (hs <> []) by (apply (N ph); left; reflexivity). assert (length l <= length (concat (map snd l))) by (apply IH; intros q k I; apply (N q); right; exact I). destruct hs; [congruence|]. cbn. lia.
Qed.
Lemma face_d : distinct opp around cuts.
Proof. pose proof around_3. apply (face_distinct around ltac:(lia) edges cuts (df_edges _ _ _ _ _ _ DF) (df_nodup _ _ _ _ _ _ DF)). Qed.
Lemma mouth_crossing s : In s mouths -> cnt <= s.
Proof.
  intros I. pose proof (clipped_inv src tgt opp opp_opp (src_opp seg) (tgt_opp seg) around (df_ring _ _ _ _ _ _ DF) polygons cuts mouths (df_polygons _ _ _ _ _ _ DF) face_d) as INV.
  destruct (i_ms _ _ _ _ _ _ _ INV s I) as (h & Ih & <-). destruct (df_cuts _ _ _ _ _ _ DF h Ih) as (e & e' & C & _). apply C.
Qed.
Notation bedges P := (bedges seg registry cnt P edges).
Lemma bedges_around P : conforming P -> Permutation (bedges P) (map edge around).
Proof. intros C. apply (parts seg around registry cnt P C edges cuts (df_edges _ _ _ _ _ _ DF) sides_boundary cuts_inside). Qed.
Lemma start_to_clip P h : conforming P -> first_boundary seg psrc pface ps_halfedge registry cnt pieces f (bedges P) = Some h -> ~ In (src h) mouths ->
  exists out, clip P f edges = Some out /\ same_polygons polygons out.
Proof.
  intros C FB FM. pose proof around_3 as L3. destruct (distinct_facts opp opp_opp around cuts face_d) as (_ & DB & _).
  apply (clip_correct seg around (df_ring _ _ _ _ _ _ DF) ltac:(lia) DB psrc pface ps_halfedge registry cnt pieces P C f edges cuts mouths polygons (df_polygons _ _ _ _ _ _ DF) (df_size _ _ _ _ _ _ DF) (df_edges _ _ _ _ _ _ DF) (df_nodup _ _ _ _ _ _ DF) sides_boundary cuts_inside h FB); [|exact FM].
  apply (loop_sound seg psrc ptgt pface ps_halfedge registry cnt pieces f sides is_side (bedges P) h); [|exact FB]. intros e I. eapply Permutation_in; [apply (bedges_around P C)|exact I].
Qed.
End Proof.

(** A side without points, or the first piece of a side, ends with... [leading k]: k is the first piece of its side; [inner k]: k is between two intersection points of a side.
    The theorem: the polygons are found when the pieces between two points of a side are directed as the face is, and no slit starts where such a piece starts.  (Missing: the other cases, see below.) *)
Theorem C68_clipped_partial f sides cuts mouths polygons edges partition :
  divided_face f sides cuts mouths polygons edges -> conforming partition ->
  (forall ph U k V, In (ph, U ++ k :: V) sides -> U <> [] -> V <> [] -> Nat.even k = true /\ ~ In (src k) mouths) ->
  exists out, clip partition f edges = Some out /\ same_polygons polygons out.
Proof.
  intros DF C IN. pose proof (is_side _ _ _ _ _ _ DF) as SD. pose proof (bedges_around _ _ _ _ _ _ DF partition C) as PB.
  assert (BD : forall e, In e (bedges seg registry cnt partition edges) -> In e (map edge (concat (map snd sides)))) by (intros e I; eapply Permutation_in; [exact PB|exact I]).
  destruct (loop_found seg psrc ptgt pface ps_halfedge registry cnt pieces f sides SD _ BD) as (h & FB).
  - pose proof (df_3 _ _ _ _ _ _ DF) as L. destruct sides as [|(ph & hs) l] eqn:ES; [cbn in L; lia|]. rewrite <- ES in *. assert (I : In (ph, hs) sides) by (rewrite ES; left; reflexivity). pose proof (d_nonempty _ _ _ (df_sides _ _ _ _ _ _ DF ph hs I)) as N. destruct hs as [|k V]; [congruence|].
    exists k. split; [exists ph, V; exact I|]. eapply Permutation_in; [symmetry; exact PB|]. apply in_map. apply in_concat. exists (k :: V). split; [apply in_map_iff; exists (ph, k :: V); auto|left; reflexivity].
  - intros k (ph & U & V & I & NU & NV). apply (IN ph U k V); assumption.
  - apply (start_to_clip _ _ _ _ _ _ DF partition h C FB). destruct (loop_sound seg psrc ptgt pface ps_halfedge registry cnt pieces f sides SD _ h BD FB) as [_ [K|(ph & U & V & I & NU & NV)]].
    + pose proof (leading_orig seg psrc ptgt pface ps_halfedge registry cnt pieces f sides SD h K) as O. intros M. apply (mouth_crossing _ _ _ _ _ _ DF) in M. lia.
    + apply (IN ph U h V); assumption.
Qed.
(** In particular when no side has more than one intersection point on it. *)
Theorem C68_one_point f sides cuts mouths polygons edges partition :
  divided_face f sides cuts mouths polygons edges -> conforming partition -> (forall ph hs, In (ph, hs) sides -> length hs <= 2) ->
  exists out, clip partition f edges = Some out /\ same_polygons polygons out.
Proof.
  intros DF C L. apply (C68_clipped_partial f sides cuts mouths polygons edges partition DF C). intros ph U k V I NU NV. exfalso. apply L in I. rewrite app_length in I. cbn in I. destruct U, V; cbn in I; try congruence; lia.
Qed.
(** With the std::partition of libstdc++ it is enough that the list ends with a side without points or with the pieces of a side with one, and starts with two edges of the cuts. *)
Theorem C68_gnu f sides cuts mouths polygons edges i1 i2 M y2 y1 :
  divided_face f sides cuts mouths polygons edges -> edges = i1 :: i2 :: M ++ [y2; y1] -> In i1 (map edge cuts) -> In i2 (map edge cuts) ->
  (exists ph k, In (ph, [k]) sides /\ y1 = edge k) \/ (exists ph k k', In (ph, [k; k']) sides /\ (y2 = edge k /\ y1 = edge k' \/ y2 = edge k' /\ y1 = edge k)) ->
  exists out, clip gnu_partition f edges = Some out /\ same_polygons polygons out.
Proof.
  intros DF EE I1 I2 Y. pose proof (is_side _ _ _ _ _ _ DF) as SD. pose proof C68_gnu_conforming as C. set (isb := is_boundary seg registry cnt).
  assert (CF : forall i, In i (map edge cuts) -> isb i = false) by (intros i I; apply in_map_iff in I; destruct I as (h & <- & I); apply (cuts_inside _ _ _ _ _ _ DF h I)).
  assert (BT : forall ph hs k, In (ph, hs) sides -> In k hs -> In k (concat (map snd sides)) /\ isb (edge k) = true).
  { intros ph hs k I J. assert (K : In k (concat (map snd sides))) by (apply in_concat; exists hs; split; [apply in_map_iff; exists (ph, hs); auto|exact J]). split; [exact K|]. apply (sides_boundary _ _ _ _ _ _ DF k K). }
  assert (SL1 : forall (p : nat -> bool) l y, p y = true -> split_last p (l ++ [y]) = Some (l, y, [])) by (intros p l y P; induction l as [|x l IH]; cbn; [rewrite P; reflexivity|rewrite IH; reflexivity]).
  assert (Y1 : isb y1 = true) by (destruct Y as [(ph & k & I & ->)|(ph & k & k' & I & [[_ ->]|[_ ->]])]; eapply BT; try exact I; cbn; tauto).
  assert (GN : exists R, gnu_partition isb edges = y1 :: R /\ (isb y2 = true -> exists R', R = y2 :: R')).
  { unfold gnu_partition. rewrite EE. cbn [length gnu]. rewrite (CF i1 I1). replace (i2 :: M ++ [y2; y1]) with ((i2 :: M ++ [y2]) ++ [y1]) by (cbn; rewrite <- app_assoc; reflexivity). rewrite (SL1 isb _ y1 Y1).
    eexists. split; [reflexivity|]. intros Y2. cbn [gnu]. rewrite (CF i2 I2), (SL1 isb _ y2 Y2). cbn [app]. eexists. reflexivity. }
  destruct GN as (R & GN & GN2). pose proof (bedges_around _ _ _ _ _ _ DF gnu_partition C) as PB. pose proof (around_3 _ _ _ _ _ _ DF) as L3.
  assert (BE : exists R1, bedges seg registry cnt gnu_partition edges = y1 :: R1 /\ (isb y2 = true -> exists R2, R1 = y2 :: R2)).
  { apply Permutation_length in PB. rewrite map_length in PB. unfold bedges in *. change (ClipModel.is_boundary seg registry cnt) with isb in PB |- *. rewrite GN in *. destruct (bcount seg registry cnt edges) as [|[|n]]; [cbn in PB; lia|cbn in PB; lia|]. cbn [firstn] in *. eexists. split; [reflexivity|]. intros Y2. destruct (GN2 Y2) as (R' & ->). eexists. reflexivity. }
  destruct BE as (R1 & BE & BE2).
  assert (FB : exists h, first_boundary seg psrc pface ps_halfedge registry cnt pieces f (bedges seg registry cnt gnu_partition edges) = Some h /\ leading sides h).
  { rewrite BE. destruct Y as [(ph & k & I & ->)|(ph & k & k' & I & [[E2 E1]|[E2 E1]])].
    - exists k. assert (K : leading sides k) by (exists ph, []; exact I). split; [apply (loop_leading seg psrc ptgt _ _ _ _ _ _ sides SD), K|exact K].
    - exists k. assert (K : leading sides k) by (exists ph, [k']; exact I). split; [|exact K]. assert (Y2 : isb y2 = true) by (rewrite E2; eapply BT; [exact I|left; reflexivity]). destruct (BE2 Y2) as (R2 & ->). rewrite E1, E2.
      rewrite (loop_trailing seg psrc ptgt _ _ _ _ _ _ sides SD); [|exists ph, [k]; split; [exact I|discriminate]]. apply (loop_leading seg psrc ptgt _ _ _ _ _ _ sides SD), K.
    - exists k. assert (K : leading sides k) by (exists ph, [k']; exact I). split; [|exact K]. rewrite E1. apply (loop_leading seg psrc ptgt _ _ _ _ _ _ sides SD), K. }
  destruct FB as (h & FB & LH). apply (start_to_clip _ _ _ _ _ _ DF gnu_partition h C FB). pose proof (leading_orig seg psrc ptgt pface ps_halfedge registry cnt pieces f sides SD h LH) as O. intros K. apply (mouth_crossing _ _ _ _ _ _ DF) in K. lia.
Qed.
End C68.
