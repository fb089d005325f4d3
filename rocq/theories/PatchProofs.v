(** Flood fill and colouring: proofs. *)
From Coq Require Import List Arith Bool Lia Permutation Relations.
From Verif Require Import CutModel CutProofs ClipModel ClipProofs ClipInv SplitProofs PatchModel PatchSpec.
Import ListNotations.
Open Scope nat_scope.

Lemma opp_ge c h : 2 * c <= h <-> 2 * c <= opp h.
Proof. destruct (ClipProofs.halfedge_cases h) as [E|E]; rewrite E; [rewrite (proj1 (opp_2 (edge h)))|rewrite (proj2 (opp_2 (edge h)))]; lia. Qed.
Lemma existsb_In x l : existsb (Nat.eqb x) l = true <-> In x l.
Proof. rewrite existsb_exists. split; [intros (y & I & E); apply Nat.eqb_eq in E; subst y; exact I|intros I; exists x; split; [exact I|apply Nat.eqb_refl]]. Qed.
Lemma existsb_nIn x l : existsb (Nat.eqb x) l = false <-> ~ In x l.
Proof. rewrite <- existsb_In. destruct (existsb (Nat.eqb x) l); split; congruence. Qed.

Section Flood.
Variables (polygons : list (list nat)) (sm_count c : nat).
Notation side := (side polygons). Notation cm := (cut_mesh_polygon polygons sm_count).
Notation cut := (fun h => h < 2 * c).
Notation un := (uncut_neighbours polygons sm_count opp cut). Notation together := (together polygons sm_count opp cut).
Hypothesis U1 : forall p q h, ~ cut h -> side p h -> side q h -> p = q.
Hypothesis U2 : forall p q h, ~ cut h -> cm p -> side p h -> side q (opp h) -> cm q.
Notation h_to_ply := (h_to_ply polygons).

Lemma h_to_ply_side h p : In p (h_to_ply h) <-> side p h.
Proof.
  unfold PatchModel.h_to_ply, PatchSpec.side. rewrite in_flat_map. split.
  - intros ([i l] & I & J). apply in_map_iff in J. destruct J as (x & E & J). cbn in *. subst i. apply filter_In in J. destruct J as [J E]. apply Nat.eqb_eq in E. subst x. exists l. split; [|exact J]. clear J. revert I.
    assert (G : forall k L, In (p, l) (combine (seq k (length L)) L) -> k <= p /\ nth_error L (p - k) = Some l).
    { intros k L. revert k. induction L as [|a L IH]; intros k I; [destruct I|]. cbn in I. destruct I as [E|I]; [injection E as <- <-; split; [lia|]; rewrite Nat.sub_diag; reflexivity|]. apply IH in I. destruct I as [I1 I2]. split; [lia|]. replace (p - k) with (S (p - S k)) by lia. exact I2. }
    intros I. apply G in I. rewrite Nat.sub_0_r in I. exact (proj2 I).
  - intros (l & E & I). exists (p, l). split.
    + assert (G : forall k L i, nth_error L i = Some l -> In (k + i, l) (combine (seq k (length L)) L)).
      { intros k L. revert k. induction L as [|a L IH]; intros k i X; [destruct i; discriminate|]. cbn. destruct i as [|i]; [injection X as <-; left; f_equal; lia|]. right. replace (k + S i) with (S k + i) by lia. apply IH, X. }
      apply (G 0 _ _ E).
    + apply in_map_iff. exists h. split; [reflexivity|]. apply filter_In. split; [exact I|apply Nat.eqb_refl].
Qed.
Lemma un_sym p q : un p q -> un q p.
Proof. intros (P & Q & h & S1 & S2 & NC). split; [exact Q|]. split; [exact P|]. exists (opp h). split; [exact S2|]. rewrite opp_opp. split; [exact S1|]. intros K. apply NC. pose proof (opp_ge c h). lia. Qed.
Lemma together_sym p q : together p q -> together q p.
Proof. intros T. induction T as [p q N| |p q r _ A _ B]; [apply rt_step, un_sym, N|apply rt_refl|eapply rt_trans; eassumption]. Qed.

Notation spread := (spread polygons (2 * c)).
(** What the loop over the sides of the polygon p adds to the queue. *)
Lemma spread_all p polygon : cm p -> nth_error polygons p = Some polygon -> forall hs queue enq, (forall h, In h hs -> In h polygon) ->
  exists new, fold_left spread hs (queue, enq) = (queue ++ new, rev new ++ enq) /\ NoDup new /\ (forall q, In q new -> ~ In q enq /\ un p q) /\
    (forall h q, In h hs -> ~ cut h -> side q (opp h) -> In q (new ++ enq)).
Proof.
  intros CP EP. induction hs as [|h hs IH]; intros queue enq IN; [exists []; rewrite app_nil_r; split; [reflexivity|]; split; [constructor|]; split; [intros q []|intros h q []]|].
  cbn [fold_left]. unfold spread at 2. unfold is_boundary_halfedge. cbn [fst snd]. assert (IN' : forall k, In k hs -> In k polygon) by (intros; apply IN; right; assumption).
  destruct (Nat.leb_spec (2 * c) h) as [B|B].
  - destruct (h_to_ply (opp h)) as [|q l] eqn:EH.
    + destruct (IH queue enq IN') as (new & E & N & A & F). exists new. split; [exact E|]. split; [exact N|]. split; [exact A|]. intros k q [<-|I] NC S; [|apply (F k); assumption]. apply h_to_ply_side in S. rewrite EH in S. destruct S.
    + assert (SQ : side q (opp h)) by (apply h_to_ply_side; rewrite EH; left; reflexivity). assert (SP : side p h) by (exists polygon; split; [exact EP|apply IN; left; reflexivity]).
      assert (UQ : un p q) by (split; [exact CP|]; split; [apply (U2 p q h); [lia|exact CP|exact SP|exact SQ]|]; exists h; split; [exact SP|]; split; [exact SQ|lia]).
      assert (UU : forall r, side r (opp h) -> r = q) by (intros r S; apply (U1 r q (opp h)); [pose proof (opp_ge c h); lia|exact S|exact SQ]).
      destruct (existsb (Nat.eqb q) enq) eqn:EE.
      * destruct (IH queue enq IN') as (new & E & N & A & F). exists new. split; [exact E|]. split; [exact N|]. split; [exact A|]. intros k r [<-|I] NC S; [|apply (F k); assumption]. rewrite (UU r S). apply in_app_iff. right. apply existsb_In, EE.
      * apply existsb_nIn in EE. destruct (IH (queue ++ [q]) (q :: enq) IN') as (new & E & N & A & F). exists (q :: new). split; [rewrite E; cbn [rev]; rewrite <- !app_assoc; reflexivity|].
        split; [constructor; [intros I; apply A in I; apply (proj1 I); left; reflexivity|exact N]|]. split.
        -- intros r [<-|I]; [auto|]. apply A in I. destruct I as [I1 I2]. split; [intros X; apply I1; right; exact X|exact I2].
        -- intros k r [<-|I] NC S; [left; symmetry; apply UU, S|]. specialize (F k r I NC S). apply in_app_iff in F. cbn. rewrite in_app_iff. destruct F as [F|[F|F]]; auto.
  - destruct (IH queue enq IN') as (new & E & N & A & F). exists new. split; [exact E|]. split; [exact N|]. split; [exact A|]. intros k q [<-|I] NC S; [exfalso; apply NC; exact B|apply (F k); assumption].
Qed.

(** The invariant of the flood fill from x; K: the polygons of the patches before. *)
Record finv (x : nat) (K queue patch enq : list nat) : Prop := {
  fi_enq : forall p, In p enq <-> In p K \/ In p (patch ++ queue);
  fi_nodup : NoDup (patch ++ queue);
  fi_new : forall p, In p (patch ++ queue) -> ~ In p K /\ cm p /\ together x p;
  fi_closed : forall p q, In p patch -> un p q -> In q (patch ++ queue);
  fi_x : In x (patch ++ queue) }.
Lemma nodup_bound l : NoDup l -> (forall p, In p l -> p < length polygons) -> length l <= length polygons.
Proof. intros N B. rewrite <- (seq_length (length polygons) 0). apply NoDup_incl_length; [exact N|]. intros p I. apply in_seq. split; [lia|]. apply B, I. Qed.
Lemma flood_all x K : (forall p q, In p K -> un p q -> In q K) -> forall fuel idx queue patch known enq, finv x K queue patch enq -> queue <> [] -> length polygons < fuel + length patch ->
  exists patch' enq', flood polygons (2 * c) fuel idx queue patch known enq = Some (patch ++ patch', fold_left (fun m p => set m p idx) patch' known, enq') /\ finv x K [] (patch ++ patch') enq'.
Proof.
  intros KC. induction fuel as [|fuel IH]; intros idx queue patch known enq F NQ L.
  - exfalso. assert (B : length (patch ++ queue) <= length polygons) by (apply nodup_bound; [apply (fi_nodup _ _ _ _ _ F)|intros p I; apply (fi_new _ _ _ _ _ F) in I; destruct I as (_ & I & _); apply I]). rewrite app_length in B. lia.
  - destruct queue as [|p queue]; [congruence|]. clear NQ. destruct F as [F1 F2 F3 F4 F5]. assert (IP : In p (patch ++ p :: queue)) by (apply in_app_iff; right; left; reflexivity). destruct (F3 p IP) as (NK & CP & TP).
    assert (EP : exists polygon, nth_error polygons p = Some polygon). { destruct (nth_error polygons p) eqn:E; [eauto|]. apply nth_error_None in E. destruct CP. lia. }
    destruct EP as (polygon & EP). cbn [flood]. rewrite EP. cbn [bind]. destruct (spread_all p polygon CP EP polygon queue enq ltac:(auto)) as (new & ES & NN & NA & NF). rewrite ES.
    assert (F' : finv x K (queue ++ new) (patch ++ [p]) (rev new ++ enq)).
    { constructor.
      - intros q. rewrite !in_app_iff, <- in_rev, F1, !in_app_iff. cbn. tauto.
      - assert (PM : Permutation ((patch ++ [p]) ++ queue ++ new) (new ++ patch ++ p :: queue)). { rewrite <- !app_assoc. cbn. rewrite Permutation_app_comm. cbn [app]. rewrite <- app_assoc. symmetry. rewrite (Permutation_app_comm new). rewrite (Permutation_app_comm patch). cbn. rewrite <- !app_assoc. constructor. apply Permutation_app_head. apply Permutation_app_comm. }
        eapply Permutation_NoDup; [symmetry; exact PM|]. assert (D : forall q, In q new -> ~ In q (patch ++ p :: queue)) by (intros q I J; apply NA in I; apply (proj1 I); apply F1; right; exact J). clear - NN D F2. induction new as [|a new IH]; [exact F2|]. inversion_clear NN as [|? ? N1 N2]. cbn. constructor; [|apply IH; [exact N2|intros; apply D; right; assumption]]. rewrite in_app_iff. intros [I|I]; [exact (N1 I)|exact (D a (or_introl eq_refl) I)].
      - intros q I. assert (J : In q (patch ++ p :: queue) \/ In q new) by (rewrite !in_app_iff in *; cbn in *; tauto). destruct J as [J|J]; [apply F3, J|]. apply NA in J. destruct J as [J1 J2]. split; [intros X; apply J1, F1; left; exact X|]. split; [apply J2|]. eapply rt_trans; [exact TP|apply rt_step, J2].
      - intros q r I N. apply in_app_iff in I. destruct I as [I|[<-|[]]]; [specialize (F4 q r I N); rewrite !in_app_iff in *; cbn in *; tauto|].
        assert (J : In r (new ++ enq)). { pose proof N as (_ & _ & h & S1 & S2 & NC). destruct S1 as (polygon' & E' & I'). rewrite EP in E'. injection E' as <-. apply (NF h r I' NC S2). }
        apply in_app_iff in J. destruct J as [J|J]; [rewrite !in_app_iff; tauto|]. apply F1 in J. destruct J as [J|J]; [exfalso; apply NK; apply (KC r p J); apply un_sym, N|]. rewrite !in_app_iff in *. cbn in *. tauto.
      - rewrite !in_app_iff in *. cbn in *. tauto. }
    destruct (queue ++ new) as [|p' queue'] eqn:EQ.
    + exists [p], (rev new ++ enq). split; [reflexivity|]. exact F'.
    + destruct (IH idx (p' :: queue') (patch ++ [p]) (set known p idx) (rev new ++ enq) F') as (patch' & enq' & E1 & E2); [discriminate|rewrite app_length; cbn; lia|]. exists (p :: patch'), enq'. rewrite E1, <- !app_assoc. split; [reflexivity|]. rewrite <- app_assoc in E2. exact E2.
Qed.

(** ** All patches *)
Record binv (s : found) : Prop := {
  b_patches : are_patches polygons sm_count opp cut (patches s);
  b_known : forall p k, lookup (known s) p = Some k <-> exists P, nth_error (patches s) k = Some P /\ In p P;
  b_enq : forall p, In p (enqueued s) <-> In p (concat (patches s));
  b_seeds : Forall2 (fun P seed => In (fst seed) P) (patches s) (patch_seeds s) }.
Lemma fold_set_lookup patch (m : list (nat * nat)) idx p : lookup (fold_left (fun m p => set m p idx) patch m) p = if existsb (Nat.eqb p) patch then Some idx else lookup m p.
Proof. revert m. induction patch as [|a patch IH]; intros m; [reflexivity|]. cbn [fold_left existsb]. rewrite IH, set_lookup. destruct (Nat.eqb p a); cbn; [destruct (existsb (Nat.eqb p) patch); reflexivity|reflexivity]. Qed.
Lemma mem_lookup {A} (m : list (nat * A)) k : CutModel.mem m k = true <-> exists a, lookup m k = Some a.
Proof. rewrite lookup_mem. apply mem_In. Qed.
Lemma concat_nth (l : list (list nat)) p : In p (concat l) <-> exists k P, nth_error l k = Some P /\ In p P.
Proof. rewrite in_concat. split; [intros (P & I & J); apply In_nth_error in I; destruct I as (k & I); eauto|intros (k & P & I & J); apply nth_error_In in I; eauto]. Qed.
Lemma from_seed_ok s seed : binv s -> cm (fst seed) -> exists s', from_seed polygons (2 * c) s seed = Some s' /\ binv s' /\ (exists new, patches s' = patches s ++ new /\ patch_seeds s' = patch_seeds s ++ repeat seed (length new)) /\ In (fst seed) (concat (patches s')).
Proof.
  intros [B1 B2 B3 B4] CP. unfold from_seed. destruct (CutModel.mem (known s) (fst seed)) eqn:M.
  - exists s. split; [reflexivity|]. split; [constructor; assumption|]. split; [exists []; rewrite !app_nil_r; auto|]. apply mem_lookup in M. destruct M as (k & M). apply B2 in M. destruct M as (P & E & I). apply concat_nth. eauto.
  - assert (NK : ~ In (fst seed) (concat (patches s))). { intros I. apply concat_nth in I. destruct I as (k & P & E & I). assert (M' : CutModel.mem (known s) (fst seed) = true) by (apply mem_lookup; exists k; apply B2; eauto). congruence. }
    destruct B1 as [A1 A2 A3 A4].
    assert (KC : forall p q, In p (concat (patches s)) -> un p q -> In q (concat (patches s))). { intros p q I N. apply in_concat in I. destruct I as (P & IP & I). apply in_concat. exists P. split; [exact IP|]. apply (A4 P p q IP I). apply rt_step, N. }
    assert (F : finv (fst seed) (concat (patches s)) [fst seed] [] (fst seed :: enqueued s)).
    { constructor; cbn [app].
      - intros p. cbn. rewrite B3. tauto.
      - constructor; [intros []|constructor].
      - intros p [<-|[]]. split; [exact NK|]. split; [exact CP|apply rt_refl].
      - intros p q [].
      - left. reflexivity. }
    destruct (flood_all _ _ KC (S (length polygons)) (length (patches s)) _ _ (known s) _ F) as (patch & enq' & E & F'); [discriminate|cbn; lia|]. cbn [app] in *. rewrite E. cbn [bind]. eexists. split; [reflexivity|]. destruct F' as [F1 F2 F3 F4 F5]. rewrite app_nil_r in *. cbn [patches].
    split; [|split; [exists [patch]; auto|rewrite concat_app; cbn; rewrite app_nil_r; apply in_app_iff; right; exact F5]].
    constructor; cbn [patches PatchModel.known patch_seeds enqueued].
    + constructor.
      * rewrite concat_app. cbn. rewrite app_nil_r. assert (PM : Permutation (concat (patches s) ++ patch) (patch ++ concat (patches s))) by apply Permutation_app_comm. eapply Permutation_NoDup; [symmetry; exact PM|]. assert (D : forall q, In q patch -> ~ In q (concat (patches s))) by (intros q I; apply F3, I). clear - F2 D A1. induction patch as [|a new IH]; [exact A1|]. inversion_clear F2 as [|? ? N1 N2]. cbn. constructor; [|apply IH; [exact N2|intros; apply D; right; assumption]]. rewrite in_app_iff. intros [I|I]; [exact (N1 I)|exact (D a (or_introl eq_refl) I)].
      * intros P p I J. apply in_app_iff in I. destruct I as [I|[<-|[]]]; [apply (A2 P p I J)|]. apply F3, J.
      * intros P I. apply in_app_iff in I. destruct I as [I|[<-|[]]]; [apply (A3 P I)|]. intros Z. rewrite Z in F5. destruct F5.
      * intros P p q I J. apply in_app_iff in I. destruct I as [I|[<-|[]]]; [apply (A4 P p q I J)|]. split.
        -- intros Q. eapply rt_trans; [apply together_sym, F3, J|apply F3, Q].
        -- intros T. revert J. apply clos_rt_rt1n in T. induction T as [|p r q N T IH]; intros J; [exact J|]. apply IH. apply (F4 p r J N).
    + intros p k. rewrite fold_set_lookup. destruct (existsb (Nat.eqb p) patch) eqn:EP.
      * apply existsb_In in EP. split.
        -- intros X. injection X as <-. exists patch. split; [rewrite nth_error_app2, Nat.sub_diag by lia; reflexivity|exact EP].
        -- intros (P & X & I). destruct (Nat.lt_ge_cases k (length (patches s))) as [L|L].
           ++ rewrite nth_error_app1 in X by exact L. exfalso. apply (F3 p EP). apply concat_nth. eauto.
           ++ f_equal. rewrite nth_error_app2 in X by exact L. assert (k - length (patches s) < length [patch]) by (apply nth_error_Some; congruence). cbn in *. lia.
      * apply existsb_nIn in EP. rewrite B2. split; intros (P & X & I).
        -- exists P. split; [|exact I]. rewrite nth_error_app1; [exact X|]. apply nth_error_Some. congruence.
        -- destruct (Nat.lt_ge_cases k (length (patches s))) as [L|L]; [rewrite nth_error_app1 in X by exact L; eauto|]. rewrite nth_error_app2 in X by exact L. destruct (k - length (patches s)) as [|j]; [injection X as <-; contradiction|destruct j; discriminate].
    + intros p. rewrite F1, concat_app. cbn. rewrite app_nil_r, in_app_iff. reflexivity.
    + apply Forall2_app; [exact B4|]. constructor; [exact F5|constructor].
Qed.
Lemma build_ok seeds : (forall x, In x seeds -> cm (fst x)) -> exists s, build_patches polygons (2 * c) seeds = Some s /\ binv s /\ (forall x, In x seeds -> In (fst x) (concat (patches s))) /\ incl (patch_seeds s) seeds.
Proof.
  intros H. unfold build_patches. assert (G : forall l s0, binv s0 -> (forall x, In x l -> cm (fst x)) -> exists s, fold_left (fun s seed => let* s := s in from_seed polygons (2 * c) s seed) l (Some s0) = Some s /\ binv s /\ (forall x, In x l -> In (fst x) (concat (patches s))) /\ (forall x, In x (concat (patches s0)) -> In x (concat (patches s))) /\ incl (patch_seeds s) (l ++ patch_seeds s0)).
  { induction l as [|x l IH]; intros s0 B HL; [exists s0; split; [reflexivity|]; split; [exact B|]; split; [intros ? []|]; split; [auto|apply incl_refl]|]. cbn [fold_left bind]. destruct (from_seed_ok s0 x B (HL x (or_introl eq_refl))) as (s1 & E1 & B1 & (new & N1 & N2) & I1). rewrite E1.
    destruct (IH s1 B1) as (s & E & BS & I2 & I3 & I4); [intros; apply HL; right; assumption|]. exists s. split; [exact E|]. split; [exact BS|]. split; [intros y [<-|I]; [apply I3, I1|apply I2, I]|]. split; [intros y I; apply I3; rewrite N1, concat_app; apply in_app_iff; left; exact I|].
    intros y I. apply I4 in I. apply in_app_iff in I. cbn. destruct I as [I|I]; [right; apply in_app_iff; left; exact I|]. rewrite N2 in I. apply in_app_iff in I. destruct I as [I|I]; [right; apply in_app_iff; right; exact I|]. apply repeat_spec in I. left. congruence. }
  assert (B0 : binv nothing_found). { constructor; cbn; [constructor; cbn; [constructor|intros P p []|intros P []|intros P p q []]|intros p k; split; [discriminate|intros (P & E & _); destruct k; discriminate]|tauto|constructor]. }
  destruct (G (rev seeds) nothing_found B0) as (s & E & B & I & _ & J); [intros x X; apply H, in_rev, X|]. exists s. split; [exact E|]. split; [exact B|]. split; [intros x X; apply I; apply in_rev in X; exact X|]. intros y Y. apply J in Y. cbn in Y. rewrite app_nil_r in Y. apply in_rev, Y.
Qed.
End Flood.
