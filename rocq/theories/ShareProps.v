(** C76: commands that share the helper threads, the theorems. *)
From Coq Require Import List Arith Lia Bool.
From Verif Require Import ShareModel ShareSpec ShareLocal ShareInv ShareProgress ShareEnd ShareStuck.
Import ListNotations.

Section props.
Variable W : nat.

(** *** Submitting one part after the other *)
Lemma submit_run progs m s c j : forall k st, inv W progs st -> at_section st m = s -> nth_error (prog progs m) s = Some c -> in_phase st m = Submit k -> k + j <= helpers W c ->
  exists st', steps W progs j st st' /\ inv W progs st' /\ at_section st' = at_section st /\ busy st' = busy st /\ in_phase st' m = Submit (k + j) /\ (forall x, x <> m -> in_phase st' x = in_phase st x) /\
    (forall w, queue st' w = if Nat.leb k w && Nat.ltb w (k + j) then queue st w ++ [(m, s)] else queue st w) /\ (forall i, k <= i < k + j -> parts st' m s i = Queued) /\ (forall x y i, (x, y) <> (m, s) \/ i < k -> parts st' x y i = parts st x y i).
Proof.
  induction j as [|j IH]; intros k st V EA NC PH L.
  - exists st. split; [constructor|]. split; [exact V|]. split; [reflexivity|]. split; [reflexivity|]. rewrite Nat.add_0_r. split; [exact PH|]. split; [reflexivity|]. split; [|split; [intros; lia|reflexivity]].
    intros w. destruct (Nat.leb_spec k w), (Nat.ltb_spec w k); try lia; reflexivity.
  - assert (X : manager W progs st m = Some {| at_section := at_section st; in_phase := upd (in_phase st) m (Submit (S k)); queue := upd (queue st) k (queue st k ++ [(m, s)]); busy := busy st; parts := upd3 (parts st) m s k Queued; common := common st |}).
    { unfold manager. rewrite EA, NC, PH. destruct (Nat.ltb_spec k (helpers W c)); [reflexivity|lia]. }
    pose proof (inv_manager _ _ _ _ _ V X) as V1. match type of X with _ = Some ?t => set (st1 := t) in * end.
    destruct (IH (S k) st1 V1 EA NC ltac:(cbn; apply upd_eq) ltac:(lia)) as (st' & R & V' & A & B & P & PO & Q & PQ & PP). exists st'.
    split; [replace (S j) with (j + 1) by lia; eapply steps_app; [|exact R]; eapply steps_S; [constructor|exact (X : next W progs st (Manager m) = Some st1)]|]. split; [exact V'|]. split; [exact A|]. split; [exact B|]. split; [rewrite P; f_equal; lia|]. split; [|split; [|split]].
    + intros x N. rewrite PO by exact N. cbn. apply upd_neq. exact N.
    + intros w. rewrite Q. cbn [st1 queue]. destruct (upd_cases (queue st) k (queue st k ++ [(m, s)]) w) as [[-> Y]|[N Y]]; rewrite Y.
      * destruct (Nat.leb_spec (S k) k), (Nat.leb_spec k k), (Nat.ltb_spec k (k + S j)), (Nat.ltb_spec k (S k + j)); try lia; reflexivity.
      * destruct (Nat.leb_spec (S k) w), (Nat.leb_spec k w), (Nat.ltb_spec w (k + S j)), (Nat.ltb_spec w (S k + j)); try lia; reflexivity.
    + intros i I. destruct (Nat.eq_dec i k) as [->|N]; [|apply PQ; lia]. rewrite PP by (right; lia). cbn [st1 parts]. rewrite upd3_same, upd_eq. reflexivity.
    + intros x y i I. rewrite PP by (destruct I as [I|I]; [left; exact I|right; lia]). cbn [st1 parts]. destruct (pair_dec (x, y) (m, s)) as [E|E]; [|rewrite upd3_other by exact E; reflexivity]. injection E as -> ->. destruct I as [I|I]; [contradiction|]. rewrite upd3_same, upd_neq by lia. reflexivity.
Qed.

Lemma begin_run progs m s c st : inv W progs st -> at_section st m = s -> nth_error (prog progs m) s = Some c -> in_phase st m = Begin ->
  exists st', steps W progs 1 st st' /\ inv W progs st' /\ at_section st' = at_section st /\ busy st' = busy st /\ in_phase st' m = Submit 0 /\ (forall x, x <> m -> in_phase st' x = in_phase st x) /\ queue st' = queue st /\ parts st' = parts st.
Proof.
  intros V EA NC PH. assert (X : exists st', manager W progs st m = Some st' /\ st' = {| at_section := at_section st; in_phase := upd (in_phase st) m (Submit 0); queue := queue st; busy := busy st; parts := parts st; common := upd2 (common st) m s (fresh (helpers W c)) |}) by (eexists; split; [unfold manager; rewrite EA, NC, PH|]; reflexivity).
  destruct X as (st' & X & E). exists st'. split; [eapply steps_S; [constructor|exact (X : next W progs st (Manager m) = Some st')]|]. split; [eapply inv_manager; eassumption|]. subst st'. cbn. repeat (split; [reflexivity|]). split; [apply upd_eq|]. split; [intros x N; apply upd_neq; exact N|auto].
Qed.

(** *** Up to the two sections *)
Definition cut (progs : list (list section)) (m s m' s' : nat) : list (list section) :=
  map (fun i => if Nat.eqb i m then firstn s (nth i progs []) else if Nat.eqb i m' then firstn s' (nth i progs []) else []) (seq 0 (length progs)).
Lemma cut_nth progs m s m' s' i : prog (cut progs m s m' s') i = if Nat.eqb i m then firstn s (prog progs i) else if Nat.eqb i m' then firstn s' (prog progs i) else [].
Proof.
  unfold prog, cut. destruct (Nat.lt_ge_cases i (length progs)) as [L|L].
  - set (g := fun i => if Nat.eqb i m then firstn s (nth i progs []) else if Nat.eqb i m' then firstn s' (nth i progs []) else []). rewrite (nth_indep (map g (seq 0 (length progs))) [] (g 0)) by (rewrite map_length, seq_length; exact L). rewrite map_nth, seq_nth by exact L. reflexivity.
  - rewrite (nth_overflow (map _ _)) by (rewrite map_length, seq_length; exact L). rewrite (nth_overflow progs) by exact L. rewrite !firstn_nil. destruct (Nat.eqb i m), (Nat.eqb i m'); reflexivity.
Qed.
Lemma firstn_error {A} (l : list A) s x a : nth_error (firstn s l) x = Some a -> nth_error l x = Some a /\ x < s.
Proof. revert l x. induction s as [|s IH]; intros l x E; [destruct x; discriminate|]. destruct l as [|b l]; [destruct x; discriminate|]. destruct x as [|x]; [split; [exact E|lia]|]. cbn in E. apply IH in E. destruct E. split; [assumption|lia]. Qed.
Lemma cut_error progs m s m' s' i x d : nth_error (prog (cut progs m s m' s') i) x = Some d -> nth_error (prog progs i) x = Some d /\ (i = m /\ x < s \/ i <> m /\ i = m' /\ x < s').
Proof.
  rewrite cut_nth. destruct (Nat.eqb_spec i m) as [->|N]; [intros E; apply firstn_error in E; destruct E; auto|]. destruct (Nat.eqb_spec i m') as [->|N']; [intros E; apply firstn_error in E; destruct E; auto|destruct x; discriminate].
Qed.
Lemma cut_step progs m s m' s' st t st' : next W (cut progs m s m' s') st t = Some st' -> next W progs st t = Some st'.
Proof.
  destruct t as [i|w]; cbn [next]; intros H.
  - unfold manager in *. destruct (nth_error (prog (cut progs m s m' s') i) (at_section st i)) as [d|] eqn:E; [|discriminate]. apply cut_error in E. destruct E as [E _]. rewrite E. exact H.
  - unfold helper in *. destruct (busy st w) as [[x y]|].
    + destruct (nth_error (prog (cut progs m s m' s') x) y) as [d|] eqn:E; [|discriminate]. apply cut_error in E. destruct E as [E _]. rewrite E. exact H.
    + destruct (queue st w) as [|[x y] q]; [discriminate|]. destruct (nth_error (prog (cut progs m s m' s') x) y) as [d|] eqn:E; [|discriminate]. apply cut_error in E. destruct E as [E _]. rewrite E. exact H.
Qed.
Lemma cut_steps progs m s m' s' k st st' : steps W (cut progs m s m' s') k st st' -> steps W progs k st st'.
Proof. intros R. induction R as [st|k st st' st'' t R IH X]; [constructor|]. eapply steps_S; [exact IH|eapply cut_step; exact X]. Qed.
Lemma cut_ok progs m s m' s' : sections_ok progs -> sections_ok (cut progs m s m' s').
Proof.
  intros OK p d P D. apply In_nth with (d := []) in P. destruct P as (i & I & <-). change (In d (prog (cut progs m s m' s') i)) in D. apply In_nth_error in D. destruct D as [x D]. apply cut_error in D. destruct D as [D _]. apply nth_error_In in D.
  unfold cut in I. rewrite map_length, seq_length in I. apply (OK (prog progs i) d); [apply nth_In; exact I|exact D].
Qed.

(** *** Conflicts can be decided *)
Definition two_b (c : section) : bool := Nat.leb 2 W && Nat.ltb (2 * least c) (size c).
Definition meet_b (c : section) : bool := match what c with Meet (S _) => true | _ => false end.
Definition sum_b (c : section) : bool := match what c with Sum => true | _ => false end.
Definition conflict_b (progs : list (list section)) : bool :=
  existsb (fun m => existsb (fun m' => negb (Nat.eqb m m') && existsb (fun c => existsb (fun c' => two_b c && two_b c' && meet_b c && (meet_b c' || sum_b c')) (nth m' progs [])) (nth m progs [])) (seq 0 (length progs))) (seq 0 (length progs)).
Lemma two_b_ok c : two_b c = true <-> two_helpers W c.
Proof. unfold two_b, two_helpers. rewrite andb_true_iff, Nat.leb_le, Nat.ltb_lt. reflexivity. Qed.
Lemma meet_b_ok c : meet_b c = true <-> meeting c.
Proof. unfold meet_b, meeting. destruct (what c) as [| |[|b]]; split; intros H; try discriminate; try (destruct H as [x H]; discriminate H); [exists b; reflexivity|reflexivity]. Qed.
Lemma sum_b_ok c : sum_b c = true <-> what c = Sum.
Proof. unfold sum_b. destruct (what c); split; intros H; (reflexivity || discriminate). Qed.
Lemma conflict_b_ok progs : conflict_b progs = true <-> conflict W progs.
Proof.
  unfold conflict_b, conflict. split.
  - intros H. apply existsb_exists in H. destruct H as (m & _ & H). apply existsb_exists in H. destruct H as (m' & _ & H). apply andb_true_iff in H. destruct H as [N H]. apply negb_true_iff, Nat.eqb_neq in N. apply existsb_exists in H. destruct H as (c & C & H). apply existsb_exists in H. destruct H as (c' & C' & H).
    rewrite !andb_true_iff, orb_true_iff, !two_b_ok, !meet_b_ok, sum_b_ok in H. destruct H as (((A & B) & D) & E). exists m, m', c, c'. auto 10.
  - intros (m & m' & c & c' & N & C & C' & A & B & D & E). assert (IN : forall i d, In d (nth i progs []) -> In i (seq 0 (length progs))) by (intros i d D0; apply in_seq; destruct (Nat.lt_ge_cases i (length progs)) as [L|L]; [lia|rewrite nth_overflow in D0 by exact L; destruct D0]).
    apply existsb_exists. exists m. split; [eapply IN; exact C|]. apply existsb_exists. exists m'. split; [eapply IN; exact C'|]. apply andb_true_iff. split; [apply negb_true_iff, Nat.eqb_neq, N|]. apply existsb_exists. exists c. split; [exact C|]. apply existsb_exists. exists c'. split; [exact C'|].
    rewrite !andb_true_iff, orb_true_iff, !two_b_ok, !meet_b_ok, sum_b_ok. auto.
Qed.

(** *** The way to a state that never ends *)
Lemma way progs : sections_ok progs -> forall N m s m' s' c c', s + s' = N -> m <> m' -> nth_error (prog progs m) s = Some c -> nth_error (prog progs m') s' = Some c' ->
  two_helpers W c -> two_helpers W c' -> meeting c -> meeting c' \/ what c' = Sum -> exists st, reachable W progs st /\ stuck W progs st /\ ~ all_ended progs st.
Proof.
  intros OK N. induction N as [N IH] using lt_wf_ind. intros m s m' s' c c' EN D NC NC' T T' ME ME'. set (T0 := cut progs m s m' s').
  destruct (conflict_b T0) eqn:CB.
  - apply conflict_b_ok in CB. destruct CB as (a & a' & d & d' & NA & ID & ID' & TD & TD' & MD & MD'). apply In_nth_error in ID, ID'. destruct ID as [b ID]. destruct ID' as [b' ID']. apply cut_error in ID, ID'. destruct ID as [ID BD]. destruct ID' as [ID' BD'].
    apply (IH (b + b') ltac:(lia) a b a' b' d d'); auto.
  - assert (NOC : ~ conflict W T0) by (intros X; apply conflict_b_ok in X; congruence). destruct (to_the_end W T0 start (inv_start W T0)) as (k0 & st0 & R0 & S0).
    assert (V0T : inv W T0 st0) by (eapply bounded; [apply inv_start|exact R0]). destruct (stuck_ended W T0 (cut_ok _ _ _ _ _ OK) st0 V0T S0 NOC) as [A0 F0].
    assert (EA : at_section st0 m = s) by (rewrite A0; change (nth m T0 []) with (prog T0 m); unfold T0; rewrite cut_nth, Nat.eqb_refl; apply firstn_length_le; apply Nat.lt_le_incl, nth_error_Some; congruence).
    assert (EA' : at_section st0 m' = s') by (rewrite A0; change (nth m' T0 []) with (prog T0 m'); unfold T0; rewrite cut_nth, Nat.eqb_refl; destruct (Nat.eqb_spec m' m); [congruence|]; apply firstn_length_le; apply Nat.lt_le_incl, nth_error_Some; congruence).
    assert (PH : in_phase st0 m = Begin) by (apply (i_none _ _ _ V0T); apply nth_error_None; rewrite A0; apply le_n). assert (PH' : in_phase st0 m' = Begin) by (apply (i_none _ _ _ V0T); apply nth_error_None; rewrite A0; apply le_n).
    apply cut_steps in R0. assert (V0 : inv W progs st0) by (eapply bounded; [apply inv_start|exact R0]).
    assert (H2 : 2 <= helpers W c) by (apply helpers_two; [eapply least_ok; eassumption|exact T]). assert (H2' : 2 <= helpers W c') by (apply helpers_two; [eapply least_ok; eassumption|exact T']).
    destruct (begin_run progs m s c st0 V0 EA NC PH) as (st1 & R1 & V1 & A1 & B1 & P1 & PO1 & Q1 & _).
    destruct (submit_run progs m s c 1 0 st1 V1 ltac:(rewrite A1; exact EA) NC P1 ltac:(lia)) as (st2 & R2 & V2 & A2 & B2 & P2 & PO2 & Q2 & _ & _).
    destruct (begin_run progs m' s' c' st2 V2 ltac:(rewrite A2, A1; exact EA') NC' ltac:(rewrite PO2, PO1 by auto; exact PH')) as (st3 & R3 & V3 & A3 & B3 & P3 & PO3 & Q3 & _).
    destruct (submit_run progs m' s' c' (helpers W c') 0 st3 V3 ltac:(rewrite A3, A2, A1; exact EA') NC' P3 ltac:(lia)) as (st4 & R4 & V4 & A4 & B4 & P4 & PO4 & Q4 & PQ4 & _).
    destruct (submit_run progs m s c (helpers W c - 1) 1 st4 V4 ltac:(rewrite A4, A3, A2, A1; exact EA) NC ltac:(rewrite PO4, PO3 by auto; exact P2) ltac:(lia)) as (st5 & R5 & V5 & A5 & B5 & P5 & PO5 & Q5 & PQ5 & PP5).
    assert (E5 : embraced m s m' s' st5).
    { constructor.
      - rewrite A5, A4, A3, A2, A1. exact EA.
      - rewrite A5, A4, A3, A2, A1. exact EA'.
      - rewrite PP5 by (left; congruence). apply PQ4. lia.
      - apply PQ5. lia.
      - right. rewrite B5, B4, B3, B2, B1. split; [apply F0|]. exists [(m', s')]. rewrite Q5, Q4, Q3, Q2, Q1. rewrite (proj2 (F0 0)). destruct (Nat.ltb_spec 0 (0 + helpers W c')); [|lia]. reflexivity.
      - right. rewrite B5, B4, B3, B2, B1. split; [apply F0|]. exists [(m, s)]. rewrite Q5, Q4, Q3, Q2, Q1. rewrite (proj2 (F0 1)). replace (1 + (helpers W c - 1)) with (helpers W c) by lia. destruct (Nat.ltb_spec 1 (helpers W c)); [|lia]. destruct (Nat.ltb_spec 1 (0 + helpers W c')); [|lia]. reflexivity. }
    destruct (to_the_end W progs st5 V5) as (k6 & st6 & R6 & S6). destruct (embraced_always W progs m s m' s' c c' D NC NC' H2 H2' ME ME' k6 st5 st6 V5 E5 R6) as [E6 V6].
    exists st6. split; [|split; [exact S6|eapply embraced_not_ended; eassumption]]. eexists. eapply steps_app; [|exact R6]. eapply steps_app; [|exact R5]. eapply steps_app; [|exact R4]. eapply steps_app; [|exact R3]. eapply steps_app; [|exact R2]. eapply steps_app; [|exact R1]. exact R0.
Qed.
End props.

(** However the threads are scheduled, the number of steps they take is bounded. *)
Theorem C76_bounded : forall W progs, exists N, forall k st, steps W progs k start st -> k <= N.
Proof. intros W progs. exists (left_cost W progs start). intros k st R. pose proof (proj1 (bounded W progs k start st (inv_start W progs) R)). lia. Qed.

(** However the threads are scheduled, they do not stop before all commands have ended, exactly if no two of the commands that run at the same time have conflicting sections. *)
Theorem C76_exact : forall W progs, sections_ok progs ->
  (forall st, reachable W progs st -> stuck W progs st -> all_ended progs st) <-> ~ conflict W progs.
Proof.
  intros W progs OK. split.
  - intros H (m & m' & c & c' & D & IC & IC' & T & T' & ME & ME'). apply In_nth_error in IC, IC'. destruct IC as [s NC]. destruct IC' as [s' NC']. destruct (way W progs OK (s + s') m s m' s' c c' eq_refl D NC NC' T T' ME ME') as (st & R & S & N). apply N, H; assumption.
  - intros NOC st R S. eapply stuck_ended; [exact OK|apply inv_reachable; exact R|exact S|exact NOC].
Qed.

(** A context that runs its commands in order: one manager thread. *)
Theorem C76_in_order : forall W prog, sections_ok [prog] -> forall st, reachable W [prog] st -> stuck W [prog] st -> all_ended [prog] st.
Proof.
  intros W p OK. apply C76_exact; [exact OK|]. intros (m & m' & c & c' & D & IC & IC' & _). destruct m as [|m]; [|cbn in IC; destruct m; destruct IC]. destruct m' as [|m']; [contradiction|cbn in IC'; destruct m'; destruct IC'].
Qed.

(** One helper thread, any number of manager threads. *)
Theorem C76_one_helper : forall W progs, W <= 1 -> sections_ok progs -> forall st, reachable W progs st -> stuck W progs st -> all_ended progs st.
Proof. intros W progs L OK. apply C76_exact; [exact OK|]. intros (m & m' & c & c' & D & IC & IC' & (T & _) & _). lia. Qed.

(** No barriers: loops and prefix sums. *)
Theorem C76_no_barriers : forall W progs, sections_ok progs -> (forall m b c, In c (nth m progs []) -> what c <> Meet b) -> forall st, reachable W progs st -> stuck W progs st -> all_ended progs st.
Proof. intros W progs OK NB. apply C76_exact; [exact OK|]. intros (m & m' & c & c' & D & IC & IC' & _ & _ & (b & ME) & _). apply (NB m (S b) c IC ME). Qed.

(** ** Two queries *)
(** MC_CONNECTED_COMPONENT_DATA_FACE_TRIANGULATION of a component with [f] faces: frontend.cpp:3334-3475. *)
Definition triangulation_query (f : nat) : list section := [{| what := Meet 2; size := f; least := 1024 |}].
(** MC_CONNECTED_COMPONENT_DATA_FACE, the arrays of a component with [f] faces: frontend.cpp:2316-2320 (face sizes), 2162 (their sums), 2218-2223 (copy). *)
Definition face_query (f : nat) : list section := [{| what := Loop; size := f; least := 1024 |}; {| what := Sum; size := f; least := 1024 |}; {| what := Loop; size := f; least := 16 * 1024 |}].

(** In a context with two manager threads and two helpers or more, the triangulations of two components with more than 2048 faces each may wait for each other for ever; and likewise the
    triangulation of one and the faces of another. *)
Theorem C76_two_triangulations_refuted : forall W f f', 2 <= W -> 2048 < f -> 2048 < f' ->
  exists st, reachable W [triangulation_query f; triangulation_query f'] st /\ stuck W [triangulation_query f; triangulation_query f'] st /\ ~ all_ended [triangulation_query f; triangulation_query f'] st.
Proof.
  intros W f f' L F F'. assert (OK : sections_ok [triangulation_query f; triangulation_query f']) by (intros p c [<-|[<-|[]]] [<-|[]]; cbn [least size]; lia).
  apply (way W _ OK 0 0 0 1 0 {| what := Meet 2; size := f; least := 1024 |} {| what := Meet 2; size := f'; least := 1024 |}); try reflexivity; [discriminate| | | |].
  - split; [exact L|cbn [least size]; lia].
  - split; [exact L|cbn [least size]; lia].
  - exists 1. reflexivity.
  - left. exists 1. reflexivity.
Qed.
Theorem C76_triangulation_and_faces_refuted : forall W f f', 2 <= W -> 2048 < f -> 2048 < f' ->
  exists st, reachable W [triangulation_query f; face_query f'] st /\ stuck W [triangulation_query f; face_query f'] st /\ ~ all_ended [triangulation_query f; face_query f'] st.
Proof.
  intros W f f' L F F'. assert (OK : sections_ok [triangulation_query f; face_query f']) by (intros p c [<-|[<-|[]]]; [intros [<-|[]]|intros [<-|[<-|[<-|[]]]]]; cbn [least size]; lia).
  apply (way W _ OK 1 0 0 1 1 {| what := Meet 2; size := f; least := 1024 |} {| what := Sum; size := f'; least := 1024 |}); try reflexivity; [discriminate| | | |].
  - split; [exact L|cbn [least size]; lia].
  - split; [exact L|cbn [least size]; lia].
  - exists 1. reflexivity.
  - right. reflexivity.
Qed.

(** Face queries of any two components at the same time do end. *)
Theorem C76_two_face_queries : forall W f f', 1 <= f -> 1 <= f' -> forall st, reachable W [face_query f; face_query f'] st -> stuck W [face_query f; face_query f'] st -> all_ended [face_query f; face_query f'] st.
Proof.
  intros W f f' F F'. apply C76_no_barriers.
  - intros p c [<-|[<-|[]]] [<-|[<-|[<-|[]]]]; cbn [least size]; lia.
  - intros m b c I E. destruct m as [|[|m]]; [| |cbn in I; destruct m; destruct I]; destruct I as [<-|[<-|[<-|[]]]]; discriminate.
Qed.
(** And a triangulation beside it, if one of the two components has at most 2048 faces. *)
Theorem C76_small_component : forall W f f', 1 <= f -> 1 <= f' -> f <= 2048 \/ f' <= 2048 -> forall st, reachable W [triangulation_query f; triangulation_query f'] st -> stuck W [triangulation_query f; triangulation_query f'] st -> all_ended [triangulation_query f; triangulation_query f'] st.
Proof.
  intros W f f' F F' SM. apply C76_exact; [intros p c [<-|[<-|[]]] [<-|[]]; cbn [least size]; lia|]. intros (m & m' & c & c' & D & IC & IC' & (_ & T) & (_ & T') & _).
  destruct m as [|[|m]]; [| |cbn in IC; destruct m; destruct IC]; (destruct m' as [|[|m']]; [| |cbn in IC'; destruct m'; destruct IC']); try contradiction; destruct IC as [<-|[]], IC' as [<-|[]]; cbn [least size] in T, T'; lia.
Qed.
