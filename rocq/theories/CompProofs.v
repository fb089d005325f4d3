(** Proofs about connected components. *)
From Coq Require Import List ZArith Lia Bool Relations.
From Verif Require Import Vec VecLemmas HmeshModel HmeshSpec HmeshProps ParModel ParProofs CompModel CompSpec.
Import ListNotations.
Open Scope Z_scope.

(** ** counting *)
Definition cnt (k : Z) (l : list Z) : Z := zlen (filter (Z.eqb k) l).

Lemma cnt_cons k x l : cnt k (x :: l) = (if k =? x then 1 else 0) + cnt k l.
Proof. unfold cnt, zlen. cbn. destruct (k =? x); cbn [length]; lia. Qed.

Lemma cnt_lset k l : forall i x y, nth_error l i = Some x ->
  cnt k (lset l i y) = cnt k l - (if k =? x then 1 else 0) + (if k =? y then 1 else 0).
Proof.
  induction l as [|a l IH]; intros i x y E; destruct i as [|i]; try discriminate.
  - cbn in E. injection E as ->. cbn [lset]. rewrite !cnt_cons. lia.
  - cbn in E. cbn [lset]. rewrite !cnt_cons. rewrite (IH i x y E). lia.
Qed.

Lemma cnt_vset k l i x y l' : vget l i = Some x -> vset l i y = Some l' ->
  cnt k l' = cnt k l - (if k =? x then 1 else 0) + (if k =? y then 1 else 0).
Proof.
  intros E S. apply vset_inv in S. destruct S as [R ->]. apply cnt_lset. unfold vget in E. destruct (Z.ltb_spec i 0); [lia|exact E].
Qed.

Lemma cnt_nonneg k l : 0 <= cnt k l. Proof. unfold cnt. apply zlen_nonneg. Qed.
Lemma cnt_le k l : cnt k l <= zlen l.
Proof. induction l as [|x l IH]; [unfold cnt, zlen; cbn; lia|]. rewrite cnt_cons. unfold zlen in *. cbn [length]. destruct (k =? x); lia. Qed.
Lemma cnt_repeat k x n : k <> x -> cnt k (repeat x n) = 0.
Proof. intros H. induction n as [|n IH]; [reflexivity|]. cbn [repeat]. rewrite cnt_cons, IH. destruct (Z.eqb_spec k x); [contradiction|reflexivity]. Qed.

Definition has (l : list Z) (k i : Z) : bool := match vget l i with Some x => x =? k | None => false end.
Lemma has_spec l k i : has l k i = true <-> vget l i = Some k.
Proof. unfold has. destruct (vget l i) as [x|]; [|split; discriminate]. rewrite Z.eqb_eq. split; congruence. Qed.

Lemma cnt_positions k l : cnt k l = zlen (filter (has l k) (zrange (zlen l))).
Proof.
  unfold zrange. replace (Z.to_nat (zlen l)) with (length l) by (unfold zlen; lia).
  assert (G : forall post pre, l = pre ++ post -> cnt k post = zlen (filter (has l k) (map Z.of_nat (seq (length pre) (length post))))).
  { induction post as [|x post IH]; intros pre E; [reflexivity|]. cbn [seq map length]. rewrite cnt_cons.
    specialize (IH (pre ++ [x])). rewrite app_length, Nat.add_1_r in IH. rewrite IH by (rewrite <- app_assoc; exact E).
    assert (V : vget l (Z.of_nat (length pre)) = Some x).
    { rewrite E. unfold vget. destruct (Z.ltb_spec (Z.of_nat (length pre)) 0); [lia|]. rewrite Nat2Z.id, nth_error_app2, Nat.sub_diag by lia. reflexivity. }
    cbn [filter]. unfold has at 2. rewrite V, Z.eqb_sym. destruct (x =? k); unfold zlen; cbn [length]; lia. }
  apply (G l []). reflexivity.
Qed.

Lemma vget_app1 {A} (l r : list A) i : i < zlen l -> vget (l ++ r) i = vget l i.
Proof. intros H. unfold vget. destruct (Z.ltb_spec i 0); [reflexivity|]. apply nth_error_app1. unfold zlen in H. lia. Qed.
Lemma vget_last {A} (l : list A) x : vget (l ++ [x]) (zlen l) = Some x.
Proof. unfold vget, zlen. destruct (Z.ltb_spec (Z.of_nat (length l)) 0); [lia|]. rewrite Nat2Z.id, nth_error_app2, Nat.sub_diag by lia. reflexivity. Qed.

Lemma vget_repeat {A} (x : A) n i : 0 <= i < n -> vget (repeat x (Z.to_nat n)) i = Some x.
Proof.
  intros H. destruct (vget_range_Some (repeat x (Z.to_nat n)) i) as [y E]; [rewrite zlen_repeat; lia|]. rewrite E. f_equal. apply vget_In in E. apply repeat_spec in E. exact E.
Qed.

(** ** the mesh as a graph *)
Section Graph.
Variable m : hmesh.
Hypothesis (C : consistent m) (D : dense m).
Notation N := (number_of_vertices m).

Lemma adjacent_sym a b : adjacent m a b -> adjacent m b a.
Proof.
  intros (h & L & S & T). destruct (k_ends m C h L) as (x & y & Sx & Ty & _ & _ & _ & S' & T'). exists (opposite h).
  split; [apply (k_opposite m C h L)|]. rewrite S', T'. split; congruence.
Qed.
Lemma connected_sym a b : connected m a b -> connected m b a.
Proof. induction 1 as [x y H| |x y z _ IH1 _ IH2]; [apply rt_step, adjacent_sym, H|apply rt_refl|eapply rt_trans; eassumption]. Qed.
Lemma adjacent_range a b : adjacent m a b -> 0 <= a < N /\ 0 <= b < N.
Proof.
  intros (h & L & S & T). destruct (k_ends m C h L) as (x & y & Sx & Ty & _ & Lx & Ly & _).
  assert (x = a) by congruence. assert (y = b) by congruence. subst. split; apply D; assumption.
Qed.

Lemma around v : 0 <= v < N -> exists ns, get_vertices_around_vertex m v = Some ns /\
  (forall b, In b ns <-> adjacent m v b) /\ zlen ns <= zlen (hes m).
Proof.
  intros Hv. assert (L : live_vertex m v) by (apply D; exact Hv). destruct (vget_range_Some (verts m) v) as [d Ed]; [apply L|].
  destruct (k_vertex m C v d L Ed) as [Nd In_]. unfold get_vertices_around_vertex. rewrite Ed. cbn [obind].
  assert (G : forall l, (forall h, In h l -> live_halfedge m h) -> exists ns, omap (source m) l = Some ns /\ length ns = length l /\
            forall b, In b ns <-> exists h, In h l /\ source m h = Some b).
  { induction l as [|h l IH]; intros Hl; [exists []; repeat split; [intros []|intros (h & [] & _)]|].
    destruct IH as (ns & E & Ln & Ib); [intros h' Hh'; apply Hl; right; exact Hh'|]. destruct (k_ends m C h (Hl h (or_introl eq_refl))) as (x & y & Sx & _).
    exists (x :: ns). cbn [omap]. rewrite Sx. cbn [obind]. rewrite E. cbn [obind]. split; [reflexivity|]. split; [cbn; lia|]. intros b. cbn [In]. rewrite Ib. split.
    - intros [<-|(h' & Hh & S)]; [exists h; auto|exists h'; auto].
    - intros (h' & [<-|Hh] & S); [left; congruence|right; exists h'; auto]. }
  destruct (G (vhs d)) as (ns & E & Ln & Ib); [intros h Hh; apply In_ in Hh; apply Hh|]. exists ns. split; [exact E|]. split.
  - intros b. rewrite Ib. split.
    + intros (h & Hh & S). apply In_ in Hh. apply adjacent_sym. exists h. tauto.
    + intros A. apply adjacent_sym in A. destruct A as (h & Lh & S & T). exists h. split; [apply In_; auto|exact S].
  - assert (K : (length (vhs d) <= length (zrange (zlen (hes m))))%nat).
    { apply NoDup_incl_length; [exact Nd|]. intros h Hh. apply In_zrange. apply In_ in Hh. apply Hh. }
    rewrite length_zrange in K. pose proof (zlen_nonneg (hes m)). unfold zlen in *. lia.
Qed.

(** ** pushing neighbours *)
Lemma push_all_spec l : forall q queue, zlen q = N -> (forall v, In v l -> 0 <= v < N) ->
  exists q' queue', push_all q queue l = Some (q', queue ++ queue') /\ zlen q' = N /\ queue' = l.
Proof.
  induction l as [|v l IH]; intros q queue Lq Hl; cbn [push_all].
  - exists q, []. rewrite app_nil_r. auto.
  - assert (Hv : 0 <= v < zlen q) by (rewrite Lq; apply Hl; left; reflexivity). rewrite (vset_Some q v true Hv). cbn [obind].
    destruct (IH (lset q (Z.to_nat v) true) (queue ++ [v])) as (q' & queue' & E & Lq' & ->).
    + unfold zlen. rewrite lset_length. exact Lq.
    + intros x Hx. apply Hl. right. exact Hx.
    + exists q', (v :: l). rewrite <- app_assoc in E. auto.
Qed.

Lemma push_new_spec vis l : zlen vis = N -> forall q queue, zlen q = N -> (forall v, In v l -> 0 <= v < N) ->
  exists q' queue', push_new vis q queue l = Some (q', queue ++ queue') /\ zlen q' = N /\
    (forall v, In v queue' -> In v l) /\ (forall v, In v l -> vget vis v = Some (-1) -> In v queue') /\ zlen queue' <= zlen l.
Proof.
  intros Lv. induction l as [|v l IH]; intros q queue Lq Hl; cbn [push_new].
  - exists q, []. rewrite app_nil_r. split; [reflexivity|]. split; [exact Lq|]. split; [auto|]. split; [auto|lia].
  - assert (Hv : 0 <= v < N) by (apply Hl; left; reflexivity).
    destruct (vget_range_Some vis v) as [x Ex]; [rewrite Lv; exact Hv|]. destruct (vget_range_Some q v) as [y Ey]; [rewrite Lq; exact Hv|].
    rewrite Ex, Ey. cbn [obind]. assert (Hl' : forall z, In z l -> 0 <= z < N) by (intros z Hz; apply Hl; right; exact Hz).
    destruct ((x =? -1) || negb y) eqn:B.
    + rewrite (vset_Some q v true) by (rewrite Lq; exact Hv). cbn [obind].
      destruct (IH (lset q (Z.to_nat v) true) (queue ++ [v])) as (q' & queue' & E & Lq' & I1 & I2 & I3); [unfold zlen; rewrite lset_length; exact Lq|exact Hl'|].
      exists q', (v :: queue'). rewrite <- app_assoc in E. split; [exact E|]. split; [exact Lq'|]. split; [|split].
      * intros z [<-|Hz]; [left; reflexivity|right; apply I1, Hz].
      * intros z [<-|Hz] Ez; [left; reflexivity|right; apply I2; assumption].
      * unfold zlen in *. cbn [length]. lia.
    + destruct (IH q queue Lq Hl') as (q' & queue' & E & Lq' & I1 & I2 & I3). exists q', queue'. split; [exact E|]. split; [exact Lq'|]. split; [|split].
      * intros z Hz. right. apply I1, Hz.
      * intros z [<-|Hz] Ez; [|apply I2; assumption]. exfalso. assert (x = -1) by congruence. subst x. discriminate.
      * unfold zlen in *. cbn [length]. lia.
Qed.

(** ** one component *)
Notation label st v := (vget (visited st) v).

(** [k] components are complete; [reps] their representatives. *)
Record Part (k : Z) (reps : list Z) (st : bfs) : Prop := {
  p_vl : zlen (visited st) = N;
  p_ql : zlen (queued st) = N;
  p_cl : zlen (vcount st) = k;
  p_rl : zlen reps = k;
  p_lab : forall v x, label st v = Some x -> x = -1 \/ exists u, vget reps x = Some u /\ connected m u v;
  p_rep : forall i u, vget reps i = Some u -> label st u = Some i;
  p_cnt : forall i, 0 <= i < k -> vget (vcount st) i = Some (cnt i (visited st)) }.

Definition closed (k : Z) (st : bfs) : Prop := forall a b x, 0 <= x < k -> label st a = Some x -> adjacent m a b -> label st b = Some x.

Lemma p_range k reps st v x : Part k reps st -> label st v = Some x -> -1 <= x < k.
Proof.
  intros P E. pose proof (zlen_nonneg reps). rewrite (p_rl _ _ _ P) in *. destruct (p_lab _ _ _ P v x E) as [->|(u & Eu & _)]; [lia|]. apply vget_Some_range in Eu. rewrite (p_rl _ _ _ P) in Eu. lia.
Qed.

Notation M := (1 + zlen (hes m)).

(** the queue loop of component number [k] (so there are [k + 1] with it) *)
Lemma drain_spec k reps fuel : forall st queue, Part (k + 1) reps st -> 0 <= k ->
  closed k st ->
  (forall a b, label st a = Some k -> adjacent m a b -> label st b = Some k \/ (label st b = Some (-1) /\ In b queue)) ->
  (forall v, In v queue -> 0 <= v < N /\ exists u, vget reps k = Some u /\ connected m u v) ->
  zlen queue + cnt (-1) (visited st) * M <= Z.of_nat fuel ->
  exists st', drain fuel m k st queue = Some st' /\ Part (k + 1) reps st' /\ closed (k + 1) st' /\
    forall v x, x <> -1 -> label st v = Some x -> label st' v = Some x.
Proof.
  induction fuel as [|fuel IH]; intros st queue P Hk Cl Kc Hq Hf.
  - destruct queue as [|v rest].
    + cbn. exists st. split; [reflexivity|]. split; [exact P|]. split; [|auto]. intros a b x Hx Ea Ab. destruct (Z.eq_dec x k) as [->|]; [|apply (Cl a b x); [lia|exact Ea|exact Ab]].
      destruct (Kc a b Ea Ab) as [K|[_ []]]. exact K.
    + exfalso. pose proof (cnt_nonneg (-1) (visited st)). pose proof (zlen_nonneg (hes m)). assert (0 <= cnt (-1) (visited st) * M) by nia. unfold zlen in Hf at 1. cbn [length] in Hf. lia.
  - destruct queue as [|v rest].
    + cbn. exists st. split; [reflexivity|]. split; [exact P|]. split; [|auto]. intros a b x Hx Ea Ab. destruct (Z.eq_dec x k) as [->|]; [|apply (Cl a b x); [lia|exact Ea|exact Ab]].
      destruct (Kc a b Ea Ab) as [K|[_ []]]. exact K.
    + cbn [drain]. destruct (Hq v (or_introl eq_refl)) as [Hv (u & Eu & Uv)].
      destruct (vget_range_Some (visited st) v) as [x Ex]; [rewrite (p_vl _ _ _ P); exact Hv|]. rewrite Ex. cbn [obind].
      assert (Lq : zlen (v :: rest) = 1 + zlen rest) by (unfold zlen; cbn [length]; lia).
      destruct (Z.eqb_spec x (-1)) as [->|Nx].
      * rewrite (vset_Some (visited st) v k) by (rewrite (p_vl _ _ _ P); exact Hv). cbn [obind].
        set (vis := lset (visited st) (Z.to_nat v) k).
        assert (Vs : vset (visited st) v k = Some vis) by (apply vset_Some; rewrite (p_vl _ _ _ P); exact Hv).
        rewrite (p_cnt _ _ _ P k) by lia. cbn [obind]. assert (Kr : 0 <= k < zlen (vcount st)) by (rewrite (p_cl _ _ _ P); lia).
        rewrite (vset_Some (vcount st) k _ Kr). cbn [obind]. set (cs := lset (vcount st) (Z.to_nat k) (cnt k (visited st) + 1)).
        assert (Cs : vset (vcount st) k (cnt k (visited st) + 1) = Some cs) by (apply vset_Some; exact Kr).
        destruct (around v Hv) as (ns & En & In_ & Ln). rewrite En. cbn [obind].
        assert (Lvis : zlen vis = N) by (rewrite (vset_len _ _ _ _ Vs); apply (p_vl _ _ _ P)).
        destruct (push_new_spec vis ns Lvis (queued st) rest (p_ql _ _ _ P)) as (q' & queue' & Ep & Lq' & I1 & I2 & I3).
        { intros z Hz. apply In_ in Hz. apply adjacent_range in Hz. apply Hz. }
        rewrite Ep. cbn [obind fst snd].
        assert (Lab : forall w, w <> v -> vget vis w = label st w) by (intros w Nw; apply (vget_vset_neq _ _ _ _ _ Vs); congruence).
        assert (Labv : vget vis v = Some k) by (apply (vget_vset_eq _ _ _ _ Vs)).
        assert (P' : Part (k + 1) reps (Bfs vis q' cs)).
        { constructor; cbn [visited queued vcount].
          - exact Lvis.
          - exact Lq'.
          - rewrite (vset_len _ _ _ _ Cs). apply (p_cl _ _ _ P).
          - apply (p_rl _ _ _ P).
          - intros w y Ey. destruct (Z.eq_dec w v) as [->|Nw]; [right; rewrite Labv in Ey; injection Ey as <-; exists u; auto|]. rewrite Lab in Ey by exact Nw. apply (p_lab _ _ _ P w y Ey).
          - intros i w Ei. destruct (Z.eq_dec w v) as [->|Nw]; [|rewrite Lab by exact Nw; apply (p_rep _ _ _ P); exact Ei].
            pose proof (p_rep _ _ _ P i v Ei) as K. rewrite Ex in K. injection K as K. apply vget_Some_range in Ei. lia.
          - intros i Hi. rewrite (cnt_vset i _ _ _ _ _ Ex Vs). destruct (Z.eqb_spec i (-1)) as [|_]; [lia|]. destruct (Z.eqb_spec i k) as [->|Ni].
            + rewrite (vget_vset_eq _ _ _ _ Cs). f_equal. lia.
            + rewrite (vget_vset_neq _ _ _ _ _ Cs) by congruence. rewrite (p_cnt _ _ _ P i Hi). f_equal. lia. }
        destruct (IH (Bfs vis q' cs) (rest ++ queue') P' Hk) as (st' & Ed & P'' & Cl'' & Mono).
        -- intros a b x Hx Ea Ab. cbn [visited] in *. destruct (Z.eq_dec a v) as [->|Na]; [rewrite Labv in Ea; injection Ea as <-; lia|]. rewrite Lab in Ea by exact Na.
           pose proof (Cl a b x Hx Ea Ab) as Eb. destruct (Z.eq_dec b v) as [->|Nb]; [rewrite Ex in Eb; injection Eb as <-; lia|]. rewrite Lab by exact Nb. exact Eb.
        -- intros a b Ea Ab. cbn [visited] in *. destruct (Z.eq_dec b v) as [->|Nb]; [left; exact Labv|]. rewrite (Lab b Nb).
           destruct (Z.eq_dec a v) as [->|Na].
           ++ destruct (vget_range_Some (visited st) b) as [y Ey]; [rewrite (p_vl _ _ _ P); eapply adjacent_range; exact Ab|].
              destruct (Z.eq_dec y (-1)) as [->|Ny].
              ** right. split; [exact Ey|]. apply in_or_app. right. apply I2; [apply In_; exact Ab|]. rewrite Lab by exact Nb. exact Ey.
              ** left. pose proof (p_range _ _ _ _ _ P Ey) as Ry. destruct (Z.eq_dec y k) as [->|Nk]; [exact Ey|]. exfalso.
                 assert (Hy : 0 <= y < k) by lia. pose proof (Cl b v y Hy Ey (adjacent_sym _ _ Ab)) as K. rewrite Ex in K. injection K as K. lia.
           ++ rewrite Lab in Ea by exact Na. destruct (Kc a b Ea Ab) as [K|[K [->|Kin]]]; [left; exact K|congruence|right; split; [exact K|apply in_or_app; left; exact Kin]].
        -- intros w Hw. apply in_app_or in Hw. destruct Hw as [Hw|Hw]; [apply Hq; right; exact Hw|]. apply I1, In_ in Hw. split; [eapply adjacent_range; exact Hw|]. exists u. split; [exact Eu|]. eapply rt_trans; [exact Uv|apply rt_step; exact Hw].
        -- cbn [visited]. rewrite (cnt_vset (-1) _ _ _ _ _ Ex Vs). destruct (Z.eqb_spec (-1) k); [lia|]. rewrite zlen_app. replace (-1 =? -1) with true by reflexivity.
           rewrite Lq in Hf. replace ((cnt (-1) (visited st) - 1 + 0) * M) with (cnt (-1) (visited st) * M - M) by ring. lia.
        -- exists st'. split; [exact Ed|]. split; [exact P''|]. split; [exact Cl''|]. intros w y Ny Ey. apply Mono; [exact Ny|]. cbn [visited].
           destruct (Z.eq_dec w v) as [->|Nw]; [congruence|]. rewrite Lab by exact Nw. exact Ey.
      * destruct (IH st rest P Hk Cl) as (st' & Ed & P'' & Cl'' & Mono).
        -- intros a b Ea Ab. destruct (Kc a b Ea Ab) as [K|[K [->|Kin]]]; [left; exact K|congruence|right; auto].
        -- intros w Hw. apply Hq. right. exact Hw.
        -- lia.
        -- exists st'. auto.
Qed.

(** ** all components *)
Lemma closed_connected k st a b x : closed k st -> 0 <= x < k -> label st a = Some x -> connected m a b -> label st b = Some x.
Proof. intros Cl Hx E H. induction H as [a b H| |a b c _ IH1 _ IH2]; [eapply Cl; eassumption|exact E|auto]. Qed.

Definition enough : Z := zlen (hes m) + N * M.

Lemma visit_spec fuel reps cc st u : enough <= Z.of_nat fuel -> 0 <= u < N -> zlen reps = cc + 1 -> Part (cc + 1) reps st -> closed (cc + 1) st ->
  exists reps' cc' st', visit fuel m (cc, st) u = Some (cc', st') /\ zlen reps' = cc' + 1 /\ Part (cc' + 1) reps' st' /\ closed (cc' + 1) st' /\
    (forall v x, x <> -1 -> label st v = Some x -> label st' v = Some x) /\ label st' u <> Some (-1) /\
    (forall v, In v reps' -> In v reps \/ v = u).
Proof.
  intros Hf Hu Lr P Cl. unfold visit. destruct (vget_range_Some (visited st) u) as [x Ex]; [rewrite (p_vl _ _ _ P); exact Hu|]. rewrite Ex. cbn [obind].
  destruct (Z.eqb_spec x (-1)) as [->|Nx].
  - set (k := cc + 1) in *. rewrite (vset_Some (visited st) u k) by (rewrite (p_vl _ _ _ P); exact Hu). cbn [obind].
    set (vis := lset (visited st) (Z.to_nat u) k).
    assert (Vs : vset (visited st) u k = Some vis) by (apply vset_Some; rewrite (p_vl _ _ _ P); exact Hu).
    rewrite (vset_Some (queued st) u true) by (rewrite (p_ql _ _ _ P); exact Hu). cbn [obind].
    destruct (around u Hu) as (ns & En & In_ & Ln). rewrite En. cbn [obind].
    destruct (push_all_spec ns (lset (queued st) (Z.to_nat u) true) []) as (q' & queue' & Ep & Lq' & ->).
    { unfold zlen. rewrite lset_length. exact (p_ql _ _ _ P). }
    { intros z Hz. apply In_ in Hz. apply adjacent_range in Hz. apply Hz. }
    rewrite Ep. cbn [obind fst snd app].
    assert (Lab : forall w, w <> u -> vget vis w = label st w) by (intros w Nw; apply (vget_vset_neq _ _ _ _ _ Vs); congruence).
    assert (Labu : vget vis u = Some k) by (apply (vget_vset_eq _ _ _ _ Vs)).
    assert (K0 : 0 <= k) by (rewrite <- Lr; apply zlen_nonneg).
    assert (Ck : cnt k (visited st) = 0).
    { rewrite cnt_positions. destruct (filter (has (visited st) k) (zrange (zlen (visited st)))) as [|z r] eqn:Ef; [reflexivity|]. exfalso.
      assert (Hz : In z (filter (has (visited st) k) (zrange (zlen (visited st))))) by (rewrite Ef; left; reflexivity). apply filter_In in Hz. destruct Hz as [_ Hz]. apply has_spec in Hz.
      apply (p_range _ _ _ _ _ P) in Hz. lia. }
    assert (P' : Part (k + 1) (reps ++ [u]) (Bfs vis q' (vcount st ++ [1]))).
    { constructor; cbn [visited queued vcount].
      - rewrite (vset_len _ _ _ _ Vs). apply (p_vl _ _ _ P).
      - exact Lq'.
      - rewrite zlen_app, (p_cl _ _ _ P). reflexivity.
      - rewrite zlen_app, Lr. reflexivity.
      - intros w y Ey. destruct (Z.eq_dec w u) as [->|Nw].
        + right. rewrite Labu in Ey. injection Ey as <-. exists u. rewrite <- Lr. split; [apply vget_last|apply rt_refl].
        + rewrite Lab in Ey by exact Nw. destruct (p_lab _ _ _ P w y Ey) as [K|(z & Ez & Cz)]; [left; exact K|right]. exists z. split; [|exact Cz]. rewrite vget_app1; [exact Ez|]. apply vget_Some_range in Ez. lia.
      - intros i w Ei. assert (Ri := vget_Some_range _ _ _ Ei). rewrite zlen_app in Ri. change (zlen [u]) with 1 in Ri. destruct (Z.eq_dec i k) as [->|Ni].
        + rewrite <- Lr in Ei at 1. rewrite vget_last in Ei. injection Ei as <-. exact Labu.
        + rewrite vget_app1 in Ei by lia. pose proof (p_rep _ _ _ P i w Ei) as K. destruct (Z.eq_dec w u) as [->|Nw]; [rewrite Ex in K; injection K as K; lia|]. rewrite Lab by exact Nw. exact K.
      - intros i Hi. rewrite (cnt_vset i _ _ _ _ _ Ex Vs). destruct (Z.eqb_spec i (-1)) as [|_]; [lia|]. destruct (Z.eqb_spec i k) as [->|Ni].
        + rewrite Ck. rewrite <- (p_cl _ _ _ P) at 1. rewrite vget_last. reflexivity.
        + rewrite vget_app1 by (rewrite (p_cl _ _ _ P); lia). rewrite (p_cnt _ _ _ P i) by lia. f_equal. lia. }
    destruct (drain_spec k (reps ++ [u]) fuel (Bfs vis q' (vcount st ++ [1])) ns P' K0) as (st' & Ed & P'' & Cl'' & Mono).
    + intros a b x Hx Ea Ab. cbn [visited] in *. destruct (Z.eq_dec a u) as [->|Na]; [rewrite Labu in Ea; injection Ea as <-; lia|]. rewrite Lab in Ea by exact Na.
      pose proof (Cl a b x Hx Ea Ab) as Eb. destruct (Z.eq_dec b u) as [->|Nb]; [rewrite Ex in Eb; injection Eb as <-; lia|]. rewrite Lab by exact Nb. exact Eb.
    + intros a b Ea Ab. cbn [visited] in *. destruct (Z.eq_dec b u) as [->|Nb]; [left; exact Labu|]. rewrite (Lab b Nb).
      destruct (Z.eq_dec a u) as [->|Na].
      * destruct (vget_range_Some (visited st) b) as [y Ey]; [rewrite (p_vl _ _ _ P); eapply adjacent_range; exact Ab|].
        destruct (Z.eq_dec y (-1)) as [->|Ny]; [right; split; [exact Ey|apply In_; exact Ab]|]. exfalso.
        pose proof (p_range _ _ _ _ _ P Ey) as Ry. assert (Hy : 0 <= y < k) by lia. pose proof (Cl b u y Hy Ey (adjacent_sym _ _ Ab)) as K. rewrite Ex in K. injection K as K. lia.
      * rewrite Lab in Ea by exact Na. exfalso. apply (p_range _ _ _ _ _ P) in Ea. lia.
    + intros w Hw. apply In_ in Hw. split; [eapply adjacent_range; exact Hw|]. exists u. rewrite <- Lr. split; [apply vget_last|apply rt_step; exact Hw].
    + cbn [visited]. pose proof (cnt_le (-1) vis) as Cn. rewrite (vset_len _ _ _ _ Vs), (p_vl _ _ _ P) in Cn. unfold enough in Hf. pose proof (zlen_nonneg (hes m)). nia.
    + rewrite Ed. cbn [obind]. exists (reps ++ [u]), k, st'. split; [reflexivity|]. split; [rewrite zlen_app, Lr; reflexivity|]. split; [exact P''|]. split; [exact Cl''|]. split; [|split].
      * intros w y Ny Ey. apply Mono; [exact Ny|]. cbn [visited]. destruct (Z.eq_dec w u) as [->|Nw]; [congruence|]. rewrite Lab by exact Nw. exact Ey.
      * rewrite (Mono u k); [intros [= K]; lia|lia|exact Labu].
      * intros w Hw. apply in_app_or in Hw. destruct Hw as [Hw|[<-|[]]]; auto.
  - exists reps, cc, st. split; [reflexivity|]. split; [exact Lr|]. split; [exact P|]. split; [exact Cl|]. split; [auto|]. split; [congruence|auto].
Qed.

Lemma visits_spec fuel l : enough <= Z.of_nat fuel -> forall reps cc st, (forall u, In u l -> 0 <= u < N) -> zlen reps = cc + 1 -> Part (cc + 1) reps st -> closed (cc + 1) st ->
  (forall v, In v reps -> 0 <= v < N) ->
  exists reps' cc' st', ofold (visit fuel m) l (cc, st) = Some (cc', st') /\ zlen reps' = cc' + 1 /\ Part (cc' + 1) reps' st' /\ closed (cc' + 1) st' /\
    (forall v x, x <> -1 -> label st v = Some x -> label st' v = Some x) /\ (forall u, In u l -> label st' u <> Some (-1)) /\ (forall v, In v reps' -> 0 <= v < N).
Proof.
  intros Hf. induction l as [|u l IH]; intros reps cc st Hl Lr P Cl Hr; cbn [ofold].
  - exists reps, cc, st. split; [reflexivity|]. split; [exact Lr|]. split; [exact P|]. split; [exact Cl|]. split; [auto|]. split; [intros u []|exact Hr].
  - assert (Hu : 0 <= u < N) by (apply Hl; left; reflexivity).
    destruct (visit_spec fuel reps cc st u Hf Hu Lr P Cl) as (reps1 & cc1 & st1 & E1 & L1 & P1 & C1 & M1 & U1 & R1). rewrite E1. cbn [obind].
    destruct (IH reps1 cc1 st1) as (reps2 & cc2 & st2 & E2 & L2 & P2 & C2 & M2 & U2 & R2); auto.
    { intros z Hz. apply Hl. right. exact Hz. }
    { intros v Hv. apply R1 in Hv. destruct Hv as [Hv| ->]; auto. }
    exists reps2, cc2, st2. split; [exact E2|]. split; [exact L2|]. split; [exact P2|]. split; [exact C2|]. split; [auto|]. split; [|exact R2].
    intros z [<-|Hz]; [|apply U2; exact Hz]. destruct (vget_range_Some (visited st1) u) as [x Ex]; [rewrite (p_vl _ _ _ P1); exact Hu|].
    assert (Nx : x <> -1) by congruence. rewrite (M2 u x Nx Ex). congruence.
Qed.

(** ** faces *)
Notation NF := (number_of_faces m).

Lemma face_front f : live_face m f -> exists v vs, get_vertices_around_face m f = Some (v :: vs) /\ forall w, In w (v :: vs) -> 0 <= w < N /\ connected m v w.
Proof.
  intros L. destruct (k_face m C f L) as (hs & Eh & L3 & _ & Hh & Hc). unfold get_vertices_around_face. rewrite Eh. cbn [obind].
  destruct hs as [|h0 hs]; [cbn in L3; lia|].
  assert (G : forall l p, live_halfedge m p -> (forall h, In h l -> live_halfedge m h) ->
     (forall a b, In (a, b) (combine (p :: l) l) -> target m a = source m b) ->
     exists vs tp, omap (target m) l = Some vs /\ target m p = Some tp /\ forall w, In w vs -> 0 <= w < N /\ connected m tp w).
  { induction l as [|h l IH]; intros p Lp Hl Hp.
    - destruct (k_ends m C p Lp) as (x & y & _ & Ty & _). exists [], y. split; [reflexivity|]. split; [exact Ty|intros w []].
    - destruct (k_ends m C p Lp) as (x & y & _ & Ty & _). assert (Lh : live_halfedge m h) by (apply Hl; left; reflexivity).
      destruct (IH h Lh) as (vs & th & Ev & Et & Hw); [intros z Hz; apply Hl; right; exact Hz|intros a b Hab; apply Hp; right; exact Hab|].
      cbn [omap]. rewrite Et. cbn [obind]. rewrite Ev. cbn [obind]. exists (th :: vs), y. split; [reflexivity|]. split; [exact Ty|].
      assert (A : adjacent m y th). { exists h. split; [exact Lh|]. split; [|exact Et]. rewrite <- (Hp p h); [exact Ty|left; reflexivity]. }
      intros w [<-|Hw']; [split; [eapply adjacent_range; exact A|apply rt_step; exact A]|]. destruct (Hw w Hw') as [R K]. split; [exact R|]. eapply rt_trans; [apply rt_step; exact A|exact K]. }
  destruct (G hs h0) as (vs & t0 & Ev & Et & Hw).
  - apply Hh. left. reflexivity.
  - intros h Hin. apply Hh. right. exact Hin.
  - intros a b Hab. apply (Hc a b). unfold cyc_pairs. clear - Hab.
    assert (X : forall l x y, In (a, b) (combine (x :: l) l) -> In (a, b) (combine (x :: l) (l ++ [y]))).
    { induction l as [|z l IH]; intros x y H; [destruct H|]. cbn [combine app] in *. destruct H as [H|H]; [left; exact H|right; apply IH; exact H]. }
    apply X. exact Hab.
  - cbn [omap]. rewrite Et. cbn [obind]. rewrite Ev. cbn [obind]. exists t0, vs. split; [reflexivity|]. intros w [<-|K]; [|apply Hw; exact K].
    split; [|apply rt_refl]. destruct (k_ends m C h0 (proj1 (Hh h0 (or_introl eq_refl)))) as (x & y & _ & Ty & _ & _ & Ly & _). assert (y = t0) by congruence. subst y. apply D. exact Ly.
Qed.

Lemma filter_ext_In {A} (g h : A -> bool) l : (forall x, In x l -> g x = h x) -> filter g l = filter h l.
Proof. induction l as [|x l IH]; intros H; [reflexivity|]. cbn. rewrite (H x (or_introl eq_refl)), IH by (intros y Hy; apply H; right; exact Hy). reflexivity. Qed.

Lemma map_faces_spec vis n done l : (forall f, In f (done ++ l) -> live_face m f) -> NoDup (done ++ l) -> zlen vis = N -> 
  (forall v x, vget vis v = Some x -> 0 <= x < n) -> forall fcc fc,
  zlen fcc = NF -> zlen fc = n ->
  (forall f, In f done -> exists v vs, get_vertices_around_face m f = Some (v :: vs) /\ vget fcc f = vget vis v) ->
  (forall k, 0 <= k < n -> vget fc k = Some (zlen (filter (has fcc k) done))) ->
  exists fcc' fc', ofold (map_face m vis) l (fcc, fc) = Some (fcc', fc') /\ zlen fcc' = NF /\ zlen fc' = n /\
  (forall f, In f (done ++ l) -> exists v vs, get_vertices_around_face m f = Some (v :: vs) /\ vget fcc' f = vget vis v) /\
  (forall k, 0 <= k < n -> vget fc' k = Some (zlen (filter (has fcc' k) (done ++ l)))).
Proof.
  intros Hl Nd Lv Hv. revert done Hl Nd. induction l as [|f l IH]; intros done Hl Nd fcc fc L1 L2 I1 I2; cbn [ofold].
  - rewrite app_nil_r. exists fcc, fc. auto.
  - assert (Lf : live_face m f) by (apply Hl, in_or_app; right; left; reflexivity). destruct (face_front f Lf) as (v & vs & Ev & Hw).
    unfold map_face at 1. rewrite Ev. cbn [obind]. destruct (Hw v (or_introl eq_refl)) as [Rv _].
    destruct (vget_range_Some vis v) as [x Ex]; [rewrite Lv; exact Rv|]. rewrite Ex. cbn [obind]. pose proof (Hv v x Ex) as Rx.
    assert (Rf : 0 <= f < zlen fcc) by (rewrite L1; apply D; exact Lf). rewrite (vset_Some fcc f x Rf). cbn [obind]. set (fcc1 := lset fcc (Z.to_nat f) x).
    assert (S1 : vset fcc f x = Some fcc1) by (apply vset_Some; exact Rf).
    rewrite (I2 x Rx). cbn [obind]. assert (Rx' : 0 <= x < zlen fc) by lia. rewrite (vset_Some fc x _ Rx'). cbn [obind].
    set (fc1 := lset fc (Z.to_nat x) (zlen (filter (has fcc x) done) + 1)).
    assert (S2 : vset fc x (zlen (filter (has fcc x) done) + 1) = Some fc1) by (apply vset_Some; exact Rx').
    assert (Nf : ~ In f done) by (intros K; apply NoDup_remove_2 in Nd; apply Nd, in_or_app; left; exact K).
    assert (Hd : forall k, filter (has fcc1 k) done = filter (has fcc k) done).
    { intros k. apply filter_ext_In. intros z Hz. unfold has. rewrite (vget_vset_neq _ _ _ _ _ S1); [reflexivity|]. intros ->. contradiction. }
    destruct (IH (done ++ [f])) with (fcc := fcc1) (fc := fc1) as (fcc' & fc' & E & R1 & R2 & R3 & R4).
    + intros z Hz. apply Hl. rewrite <- app_assoc in Hz. exact Hz.
    + rewrite <- app_assoc. exact Nd.
    + rewrite (vset_len _ _ _ _ S1). exact L1.
    + rewrite (vset_len _ _ _ _ S2). exact L2.
    + intros z Hz. apply in_app_or in Hz. destruct Hz as [Hz|[<-|[]]].
      * destruct (I1 z Hz) as (w & ws & Ew & Eq). exists w, ws. split; [exact Ew|]. rewrite <- Eq. apply (vget_vset_neq _ _ _ _ _ S1). intros ->. contradiction.
      * exists v, vs. split; [exact Ev|]. rewrite Ex. apply (vget_vset_eq _ _ _ _ S1).
    + intros k Hk. rewrite filter_app, zlen_app, Hd. cbn [filter]. unfold has at 2. rewrite (vget_vset_eq _ _ _ _ S1). destruct (Z.eqb_spec x k) as [->|Nk].
      * rewrite (vget_vset_eq _ _ _ _ S2). reflexivity.
      * rewrite (vget_vset_neq _ _ _ _ _ S2) by exact Nk. rewrite (I2 k Hk). f_equal. unfold zlen at 3. cbn. lia.
    + rewrite <- app_assoc in R3, R4. exists fcc', fc'. auto.
Qed.
End Graph.

Theorem components_spec m fuel : history m -> dense m -> enough m <= Z.of_nat fuel ->
  exists reps r, find_connected_components fuel m = Some r /\ describes_components m reps r.
Proof.
  intros H D Hf. pose proof (C12_connectivity_consistent m H) as C. destruct (C16_iteration_and_counts_agree m H) as (Iv & _ & _ & If & _).
  destruct Iv as (us & Eu & _ & Iu & Nu & Lu). destruct If as (fs & Ef & _ & Ifs & Nf & Lf).
  unfold find_connected_components, label_vertices. rewrite Eu. cbn [obind].
  assert (N0 : 0 <= number_of_vertices m) by (rewrite <- Lu; apply zlen_nonneg). assert (F0 : 0 <= number_of_faces m) by (rewrite <- Lf; apply zlen_nonneg).
  set (st0 := Bfs (repeat (-1) (Z.to_nat (number_of_vertices m))) (repeat false (Z.to_nat (number_of_vertices m))) []).
  assert (P0 : Part m 0 [] st0).
  { constructor; cbn.
    - apply zlen_repeat. exact N0.
    - apply zlen_repeat. exact N0.
    - reflexivity.
    - reflexivity.
    - intros v x Ex. left. apply vget_In in Ex. apply repeat_spec in Ex. exact Ex.
    - intros i u Ei. apply vget_Some_range in Ei. unfold zlen in Ei. cbn in Ei. lia.
    - intros i Hi. lia. }
  destruct (visits_spec m C D fuel us Hf [] (-1) st0) as (reps & cc & st & E & Lr & P & Cl & _ & Un & Hr).
  { intros u Hu. apply D, Iu, Hu. }
  { reflexivity. }
  { exact P0. }
  { intros a b x Hx. lia. }
  { intros v []. }
  rewrite E. cbn [obind]. rewrite Ef. cbn [obind]. set (n := cc + 1) in *.
  assert (Hn : 0 <= n) by (rewrite <- Lr; apply zlen_nonneg).
  assert (Lab : forall v x, vget (visited st) v = Some x -> 0 <= x < n).
  { intros v x Ex. pose proof (p_range m _ _ _ _ _ P Ex) as R. assert (x <> -1); [|lia]. intros ->.
    assert (Hv : In v us) by (apply Iu, D; apply vget_Some_range in Ex; rewrite (p_vl _ _ _ _ P) in Ex; exact Ex). apply (Un v Hv). exact Ex. }
  destruct (map_faces_spec m C D (visited st) n [] fs) with (fcc := repeat 0 (Z.to_nat (number_of_faces m))) (fc := repeat 0 (Z.to_nat n))
    as (fcc & fc & Em & L1 & L2 & M1 & M2).
  { intros f Hin. apply Ifs. exact Hin. }
  { exact Nf. }
  { apply (p_vl _ _ _ _ P). }
  { exact Lab. }
  { apply zlen_repeat. exact F0. }
  { apply zlen_repeat. exact Hn. }
  { intros f []. }
  { intros k Hk. apply vget_repeat. exact Hk. }
  rewrite Em. cbn [obind fst snd app] in *. exists reps. eexists. split; [reflexivity|].
  assert (Same : forall u v x, vget (visited st) u = Some x -> connected m u v -> vget (visited st) v = Some x).
  { intros u v x Ex K. eapply closed_connected; [exact Cl|apply (Lab u x Ex)|exact Ex|exact K]. }
  assert (Lv : forall v, live_vertex m v -> exists x u, vget (visited st) v = Some x /\ vget reps x = Some u /\ connected m u v).
  { intros v L. apply D in L. destruct (vget_range_Some (visited st) v) as [x Ex]; [rewrite (p_vl _ _ _ _ P); exact L|].
    destruct (p_lab _ _ _ _ P v x Ex) as [->|(u & Eu' & K)]; [apply Lab in Ex; lia|]. exists x, u. auto. }
  constructor; cbn [n_components face_component vertices_in faces_in].
  - symmetry. exact Lr.
  - intros v Hv. apply D, Hr, Hv.
  - intros v L. destruct (Lv v L) as (x & u & _ & K1 & K2). exists x, u. auto.
  - intros i j u v Ei Ej K. apply (p_rep _ _ _ _ P) in Ei, Ej. pose proof (Same u v i Ei K) as Q. congruence.
  - exact L1.
  - intros f vs L Ev. destruct (M1 f) as (v & ws & Ew & Eq); [apply Ifs; exact L|]. destruct (face_front m C D f L) as (v' & vs' & Ev' & Hw).
    assert (v' = v) by congruence. assert (vs = v :: vs') by congruence. subst.
    destruct (Hw v (or_introl eq_refl)) as [Rv _]. destruct (Lv v) as (x & u & E1 & E2 & K); [apply D; exact Rv|]. exists x, u. split; [congruence|]. split; [exact E2|].
    intros w Hin. eapply rt_trans; [exact K|]. apply Hw. exact Hin.
  - intros k u Ek. exists (filter (has (visited st) k) (zrange (number_of_vertices m))). split; [apply NoDup_filter, NoDup_zrange|]. split.
    + intros v. rewrite filter_In, In_zrange, has_spec. rewrite <- (proj1 D v). pose proof (p_rep _ _ _ _ P k u Ek) as Eu'. split; intros [L K]; (split; [exact L|]).
      * destruct (p_lab _ _ _ _ P v k K) as [->|(u' & E1 & E2)]; [apply Lab in K; lia|]. assert (u' = u) by congruence. subst. exact E2.
      * exact (Same u v k Eu' K).
    + rewrite (p_cnt _ _ _ _ P k) by (apply vget_Some_range in Ek; lia). rewrite cnt_positions, (p_vl _ _ _ _ P). reflexivity.
  - intros k u Ek. exists (filter (has fcc k) fs). split; [apply NoDup_filter; exact Nf|]. split.
    + intros f. rewrite filter_In, has_spec, Ifs. tauto.
    + apply M2. apply vget_Some_range in Ek. lia.
  - split; [rewrite (p_cl _ _ _ _ P); lia|lia].
Qed.
