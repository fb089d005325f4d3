(** C66 and C67: what is inferred about the intersection curves. *)
From Coq Require Import List Arith Bool Lia Permutation Relations.
From Verif Require Import CutModel CutSpec CutProofs CutProps CutInfo CutFloat.
Import ListNotations.

Section Props.
Variable ends : nat -> nat * nat.
Variable psf : nat -> option nat * option nat.
Variable registry : list (nat * nat).
Variables cnt sm : nat.
Notation on_source := (on_source psf sm cnt registry).
Notation entry := (entry cnt registry).

Lemma entry_face v pe pf : entry v (pe, pf) -> registry_face registry cnt v = Some pf.
Proof. intros (i & -> & E). unfold registry_face. rewrite (proj2 (Nat.leb_le _ _)) by lia. replace (cnt + i - cnt) with i by lia. rewrite E. reflexivity. Qed.
Lemma face_entry v pf : registry_face registry cnt v = Some pf -> exists pe, entry v (pe, pf).
Proof. unfold registry_face. destruct (Nat.leb_spec cnt v) as [L|]; [|discriminate]. destruct (nth_error registry (v - cnt)) as [[pe f]|] eqn:E; [|discriminate]. intros [= <-]. exists pe, (v - cnt). split; [lia|exact E]. Qed.

Lemma sub_path (edges : list nat) seqs : Permutation (concat seqs) edges -> NoDup edges -> forall s, In s seqs -> incl s edges /\ NoDup s.
Proof.
  intros P N s I. destruct (in_split _ _ I) as (l1 & l2 & ->). rewrite concat_app in P. cbn [concat] in P. split.
  - intros x Ix. apply (Permutation_in _ P), in_or_app. right. apply in_or_app. left. exact Ix.
  - apply (Permutation_NoDup (Permutation_sym P)) in N. clear - N.  induction (concat l1) as [|x l IH]; [|inversion_clear N; auto]. cbn in N. induction s as [|x s IH]; [constructor|]. inversion_clear N as [|? ? A B]. constructor; [intros K; apply A, in_or_app; left; exact K|apply IH, B].
Qed.
Lemma incident_sub edges s v : NoDup s -> incl s edges -> length (incident ends s v) <= length (incident ends edges v).
Proof. intros N I. apply NoDup_incl_length; [apply NoDup_filter, N|]. intros x Ix. apply In_incident in Ix. apply In_incident. split; [apply I|]; apply Ix. Qed.
Lemma curves_sub edges s : curves ends edges -> NoDup s -> incl s edges -> curves ends s.
Proof. intros (_ & D & L) N I. split; [exact N|]. split; [intros e Ie; apply D, I, Ie|]. intros v. pose proof (incident_sub edges s v N I). specialize (L v). lia. Qed.

(** A path is not both open and closed. *)
Lemma open_not_closed edges s a ws b a' ws' : curves ends edges -> incl s edges -> NoDup s -> open_curve ends edges s a ws b -> closed_curve ends s a' ws' -> False.
Proof.
  intros G I N (C & NW & La & _) CC. assert (CS : curves ends s) by (apply (curves_sub edges); assumption). destruct s as [|x s]; [destruct ws; destruct C|].
  assert (Ma : meets ends x a) by (eapply chain_hd_edge; exact C).
  destruct (ring_degree ends (x :: s) a' ws' CC CS a x (or_introl eq_refl) Ma) as (y & D & Iy & My & _). apply D. symmetry. apply (degree1 ends edges a x y La); auto. apply I. left. reflexivity.
Qed.

Section Curves.
Variable shuffle : list (nat * list nat) -> list (nat * list nat).
Hypothesis shuffled : forall m, Permutation (shuffle m) m.
Variable edges : list nat.
Hypothesis G : curves ends edges.
Hypothesis R : recorded ends psf cnt registry edges.

(** What the properties of a path have to be: (is_linear, is_hole, is_srcmesh_severing). *)
Definition classified (s : list nat) (p : bool * bool * bool) : Prop :=
  ((exists a ws, closed_curve ends s a ws) -> p = (false, true, true)) /\
  (forall a ws b, open_curve ends edges s a ws b -> fst (fst p) = true /\ (snd (fst p) = true <-> ~ on_source a /\ ~ on_source b) /\ (snd p = true <-> on_source a /\ on_source b)).

Lemma classify_one s : incl s edges -> NoDup s -> (exists a ws b, open_curve ends edges s a ws b) \/ (exists a ws, closed_curve ends s a ws) ->
  exists p, properties ends psf registry cnt sm s = Some p /\ classified s p.
Proof.
  intros I N [(a & ws & b & O)|(a & ws & C)].
  - destruct (properties_open ends psf registry cnt sm edges R s a ws b O I N) as (h & sv & E & _). exists (true, h, sv). split; [exact E|]. split.
    + intros (a' & ws' & C). exfalso. eapply open_not_closed; eauto.
    + intros a' ws' b' O'. destruct (properties_open ends psf registry cnt sm edges R s a' ws' b' O' I N) as (h' & sv' & E' & H). rewrite E in E'. injection E' as <- <-. split; [reflexivity|exact H].
  - exists (false, true, true). split; [eapply properties_closed; eauto|]. split; [reflexivity|]. intros a' ws' b' O. exfalso. eapply open_not_closed; eauto.
Qed.
Lemma classify_all seqs : (forall s, In s seqs -> incl s edges /\ NoDup s /\ ((exists a ws b, open_curve ends edges s a ws b) \/ (exists a ws, closed_curve ends s a ws))) ->
  exists ps, all_properties ends psf registry cnt sm seqs = Some ps /\ Forall2 classified seqs ps.
Proof.
  induction seqs as [|s seqs IH]; intros H; [exists []; split; [reflexivity|constructor]|]. cbn [all_properties]. destruct (H s (or_introl eq_refl)) as (I & N & K). destruct (classify_one s I N K) as (p & E & C). rewrite E. cbn [bind].
  destruct (IH (fun t It => H t (or_intror It))) as (ps & E' & F). rewrite E'. cbn [bind]. exists (p :: ps). split; [reflexivity|]. constructor; assumption.
Qed.
Lemma paths_ok seqs vmap : cut_paths ends shuffle edges = Some (seqs, vmap) -> forall s, In s seqs -> incl s edges /\ NoDup s /\ ((exists a ws b, open_curve ends edges s a ws b) \/ (exists a ws, closed_curve ends s a ws)).
Proof.
  intros E s I. destruct (C65_paths ends shuffle edges shuffled G) as (seqs' & vm & E' & P & CU & _). rewrite E in E'. injection E' as <- <-. destruct (sub_path edges seqs P (proj1 G) s I) as [A B]. rewrite Forall_forall in CU. auto.
Qed.

Lemma indices_length sel ps : length (indices sel ps) = length (filter sel ps).
Proof. unfold indices. generalize 0. induction ps as [|p ps IH]; intros k; [reflexivity|]. cbn [length List.seq combine flat_map fst snd filter]. destruct (sel p); cbn [app length]; rewrite IH; reflexivity. Qed.
Lemma filter_all {A} (f : A -> bool) l : length (filter f l) = length l <-> forall x, In x l -> f x = true.
Proof.
  induction l as [|a l IH]; [split; [intros _ x []|reflexivity]|]. cbn [filter]. destruct (f a) eqn:E; cbn [length].
  - split; [intros H x [<-|I]; [exact E|apply IH; [lia|exact I]]|]. intros H. f_equal. apply IH. intros x I. apply H. right. exact I.
  - split; [|intros H; rewrite (H a (or_introl eq_refl)) in E; discriminate]. intros H. assert (length (filter f l) <= length l) by (clear; induction l; cbn; [lia|destruct (f a); cbn; lia]). lia.
Qed.
End Curves.
End Props.

(** C66.  Every curve is classified by its ends: a closed curve makes a hole and severs; an open curve makes a hole exactly if none of its ends is
    on a border of the source mesh, and severs the source mesh exactly if both are. *)
Theorem C66_classified ends psf registry cnt sm shuffle edges seqs vmap : (forall m, Permutation (shuffle m) m) -> curves ends edges -> recorded ends psf cnt registry edges ->
  cut_paths ends shuffle edges = Some (seqs, vmap) ->
  exists ps, all_properties ends psf registry cnt sm seqs = Some ps /\ length ps = length seqs /\
    forall i s p, nth_error seqs i = Some s -> nth_error ps i = Some p ->
      (forall a ws, closed_curve ends s a ws -> p = (false, true, true)) /\
      (forall a ws b, open_curve ends edges s a ws b ->
        let '(linear, hole, severing) := p in linear = true /\
        (hole = true <-> ~ on_source psf sm cnt registry a /\ ~ on_source psf sm cnt registry b) /\
        (severing = true <-> on_source psf sm cnt registry a /\ on_source psf sm cnt registry b)).
Proof.
  intros SH G R E. destruct (classify_all ends psf registry cnt sm edges G R seqs (paths_ok ends shuffle SH edges G seqs vmap E)) as (ps & EP & F). exists ps. split; [exact EP|]. split.
  - clear - F. induction F; [reflexivity|cbn; congruence].
  - intros i s p Ei Ej. assert (C : classified ends psf registry cnt sm edges s p).
    { clear - F Ei Ej. revert i Ei Ej. induction F as [|x y l l' H _ IH]; intros [|i] Ei Ej; cbn in *; try discriminate; [injection Ei as <-; injection Ej as <-; exact H|eapply IH; eauto]. }
    destruct C as [C1 C2]. split; [intros a ws K; apply C1; eauto|]. destruct p as [[l h] sv]. intros a ws b O. apply (C2 a ws b O).
Qed.
(** The holes are filled exactly if no curve ends on a border of the source mesh. *)
Theorem C66_fill ends psf registry cnt sm shuffle edges seqs vmap ps : (forall m, Permutation (shuffle m) m) -> curves ends edges -> recorded ends psf cnt registry edges ->
  cut_paths ends shuffle edges = Some (seqs, vmap) -> all_properties ends psf registry cnt sm seqs = Some ps ->
  (proceed_to_fill_holes seqs ps = true <-> forall v, length (incident ends edges v) = 1 -> ~ on_source psf sm cnt registry v).
Proof.
  intros SH G R E EP. pose proof (paths_ok ends shuffle SH edges G seqs vmap E) as OK.
  destruct (classify_all ends psf registry cnt sm edges G R seqs OK) as (ps' & EP' & F). rewrite EP in EP'. injection EP' as <-.
  assert (L : length ps = length seqs) by (clear - F; induction F; [reflexivity|cbn; congruence]).
  unfold proceed_to_fill_holes, making_holes. rewrite Nat.eqb_eq, indices_length, <- L, filter_all.
  destruct (C65_paths ends shuffle edges SH G) as (seqs' & vm & E' & P & CU & _). rewrite E in E'. injection E' as <- <-. split.
  - intros H v Lv. destruct (incident ends edges v) as [|e l] eqn:EI; [discriminate|]. assert (Ie : In e (incident ends edges v)) by (rewrite EI; left; reflexivity). apply In_incident in Ie. destruct Ie as [Ie Me].
    apply (Permutation_in _ (Permutation_sym P)), in_concat in Ie. destruct Ie as (s & Is & Ies). destruct (OK s Is) as (I & N & K).
    assert (X : exists p, In p ps /\ classified ends psf registry cnt sm edges s p).
    { clear - F Is. induction F as [|x y l l' C _ IH]; [destruct Is|]. destruct Is as [<-|Is]; [exists y; split; [left; reflexivity|exact C]|]. destruct (IH Is) as (p & Ip & C'). exists p. split; [right; exact Ip|exact C']. }
    destruct X as (p & Ip & _ & CO). specialize (H p Ip). rewrite <- EI in Lv. destruct K as [(a & ws & b & O)|(a & ws & C)].
    + destruct (CO a ws b O) as (_ & HO & _). destruct (proj1 HO H) as [Na Nb]. assert (VV : v = a \/ v = b).
      { destruct O as (C & NW & _). pose proof (chain_vertex ends _ _ v e C Ies Me) as Iv. destruct Iv as [<-|Iv]; [left; reflexivity|]. apply in_app_or in Iv. destruct Iv as [Iv|[<-|[]]]; [|right; reflexivity]. exfalso.
        destruct (in_split _ _ Iv) as (l1 & l2 & EW). rewrite EW, <- app_assoc in C. destruct (chain_inner ends (a :: l1) v (l2 ++ [b]) s C ltac:(discriminate) ltac:(destruct l2; discriminate)) as (s1 & x & y & s2 & Es & Mx & My).
        assert (x = y) by (apply (degree1 ends edges v x y Lv); auto; apply I; rewrite Es; apply in_or_app; right; cbn; auto). subst y. rewrite Es in N. apply NoDup_remove_2 in N. apply N, in_or_app. right. left. reflexivity. }
      destruct VV as [-> | ->]; assumption.
    + exfalso. destruct (ring_degree ends s a ws C (curves_sub ends edges s G N I) v e Ies Me) as (y & D & Iy & My & _). apply D. symmetry. apply (degree1 ends edges v e y Lv); auto.
  - intros H p Ip. assert (X : exists s, In s seqs /\ classified ends psf registry cnt sm edges s p).
    { clear - F Ip. induction F as [|x y l l' C _ IH]; [destruct Ip|]. destruct Ip as [<-|Ip]; [exists x; split; [left; reflexivity|exact C]|]. destruct (IH Ip) as (s & Is & C'). exists s. split; [right; exact Is|exact C']. }
    destruct X as (s & Is & CC & CO). destruct (OK s Is) as (_ & _ & [(a & ws & b & O)|C]); [|rewrite (CC C); reflexivity].
    destruct (CO a ws b O) as (_ & HO & _). apply HO. destruct O as (_ & _ & La & Lb). auto.
Qed.

(** C67.  Exactly the closed curves that lie in a single face are reported as floating polygons, each with that face and with its points in order around
    the curve. *)
Theorem C67_floating ends psf registry cnt sm shuffle edges seqs vmap ps : (forall m, Permutation (shuffle m) m) -> curves ends edges -> recorded ends psf cnt registry edges ->
  cut_paths ends shuffle edges = Some (seqs, vmap) -> all_properties ends psf registry cnt sm seqs = Some ps ->
  (forall s, In s seqs -> no_single_exit ends cnt registry s) ->
  exists out, detect ends shuffle registry cnt seqs ps = Some out /\ reported ends cnt registry seqs out.
Proof.
  intros SH G R E EP X. pose proof (paths_ok ends shuffle SH edges G seqs vmap E) as OK.
  destruct (classify_all ends psf registry cnt sm edges G R seqs OK) as (ps' & EP' & F). rewrite EP in EP'. injection EP' as <-. clear E EP. induction F as [|s p seqs ps [C1 C2] _ IH].
  - exists []. split; [reflexivity|constructor].
  - destruct (IH (fun t It => X t (or_intror It)) (fun t It => OK t (or_intror It))) as (out & E & RE). destruct (OK s (or_introl eq_refl)) as (I & N & K). pose proof (curves_sub ends edges s G N I) as CS.
    destruct p as [[lin hole] sv]. cbn [detect]. rewrite E. cbn [bind]. destruct K as [(a & ws & b & O)|(a & ws & C)].
    + destruct (C2 a ws b O) as (HL & _). cbn in HL. subst lin. rewrite orb_true_r. exists out. split; [reflexivity|]. constructor; [|exact RE]. intros f (a' & ws' & C & _). exact (open_not_closed ends edges s a ws b a' ws' G I N O C).
    + specialize (C1 (ex_intro _ a (ex_intro _ ws C))). injection C1 as -> -> ->. cbn [negb orb].
      pose proof (ring_meets ends s a ws C CS) as RM.
      assert (FD : forall w, In w (a :: ws) -> exists f, registry_face registry cnt w = Some f). { intros w Iw. apply RM in Iw. destruct Iw as (e & Ie & Me). destruct (R e w (I e Ie) Me) as (pe & pf & En & _). exists pf. eapply entry_face, En. }
      destruct (floating_closed ends registry cnt s a ws C (fun e Ie => proj1 (proj2 CS) e Ie) FD) as (fl & r & EL & T & U).
      { intros f v Iv H. destruct (X s (or_introl eq_refl) a ws C v f Iv) as [pe En]; [|eapply entry_face, En]. intros w Iw D. apply face_entry, H; assumption. }
      rewrite EL. cbn [bind]. destruct fl.
      * destruct (T eq_refl) as (f & -> & FW). cbn [bind]. destruct (polygon_spec ends shuffle SH s a ws C CS) as (pg & s' & EPG & x & l & -> & C' & PS). rewrite EPG. cbn [bind]. exists ((f, x :: l) :: out). split; [reflexivity|]. constructor; [|exists s'; split; assumption|exact RE].
        exists a, ws. split; [exact C|]. intros w Iw. apply face_entry, FW, Iw.
      * exists out. split; [reflexivity|]. constructor; [|exact RE]. intros f (a' & ws' & C' & EN). destruct (U f) as [Q _]; [|discriminate]. intros w Iw. apply RM in Iw; apply (ring_meets ends s a' ws' C' CS) in Iw. destruct (EN w Iw) as [pe En]. eapply entry_face, En.
Qed.

(** ** A case *)
(** A closed curve through the points 11, 12, 13 in the face 7 and an open curve 20-21-22.  The source mesh has the faces below 5.  Edge 0 is a border
    edge of the source mesh, edge 1 one of the cut mesh, edge 2 an inner edge of the source mesh. *)
Definition case2_ends (e : nat) : nat * nat := nth e [(11, 12); (21, 20); (12, 13); (21, 22); (13, 11)] (0, 1).
Definition case2_sides (e : nat) : option nat * option nat := nth e [(Some 2, None); (None, Some 6)] (Some 1, Some 2).
Definition case2_entries : list (nat * nat) := [(2, 7); (2, 7); (2, 7); (9, 9); (9, 9); (9, 9); (9, 9); (9, 9); (9, 9); (0, 8); (2, 8); (1, 3)].
Lemma case2_curves : curves case2_ends [0; 1; 2; 3; 4].
Proof.
  split; [repeat constructor; cbn; intuition congruence|]. split; [intros e I; cbn in I; intuition (subst; cbn; discriminate)|].
  intros v. do 26 (destruct v as [|v]; [cbn; lia|]). cbn. lia.
Qed.
Lemma case2_recorded : recorded case2_ends case2_sides 11 case2_entries [0; 1; 2; 3; 4].
Proof.
  assert (H : forall v i e f, v = 11 + i -> nth_error case2_entries i = Some (e, f) -> (exists f, fst (case2_sides e) = Some f \/ snd (case2_sides e) = Some f) -> (length (incident case2_ends [0; 1; 2; 3; 4] v) = 1 <-> border_edge case2_sides e) ->
    exists pe pf, entry 11 case2_entries v (pe, pf) /\ (exists f, fst (case2_sides pe) = Some f \/ snd (case2_sides pe) = Some f) /\ (length (incident case2_ends [0; 1; 2; 3; 4] v) = 1 <-> border_edge case2_sides pe)).
  { intros v i e f -> E S B. exists e, f. split; [exists i; auto|]. auto. }
  assert (IN : forall v, length (incident case2_ends [0; 1; 2; 3; 4] v) = 2 -> length (incident case2_ends [0; 1; 2; 3; 4] v) = 1 <-> border_edge case2_sides 2).
  { intros v ->. split; [discriminate|]. intros (f & [K|K]); discriminate. }
  assert (S2 : exists f, fst (case2_sides 2) = Some f \/ snd (case2_sides 2) = Some f) by (exists 1; left; reflexivity).
  assert (K : forall v, In v [11; 12; 13; 20; 21; 22] -> exists pe pf, entry 11 case2_entries v (pe, pf) /\ (exists f, fst (case2_sides pe) = Some f \/ snd (case2_sides pe) = Some f) /\ (length (incident case2_ends [0; 1; 2; 3; 4] v) = 1 <-> border_edge case2_sides pe)).
  { intros v I. cbn in I. destruct I as [<-|[<-|[<-|[<-|[<-|[<-|[]]]]]]].
    - apply (H 11 0 2 7); auto.
    - apply (H 12 1 2 7); auto.
    - apply (H 13 2 2 7); auto.
    - apply (H 20 9 0 8); auto; [exists 2; left; reflexivity|]. split; [intros _; exists 2; left; reflexivity|reflexivity].
    - apply (H 21 10 2 8); auto.
    - apply (H 22 11 1 3); auto; [exists 6; right; reflexivity|]. split; [intros _; exists 6; right; reflexivity|reflexivity]. }
  intros e v I M. apply K. cbn in I. destruct I as [<-|[<-|[<-|[<-|[<-|[]]]]]]; destruct M as [<-|<-]; cbn; auto 7.
Qed.
Theorem C67_case : curves case2_ends [0; 1; 2; 3; 4] /\ recorded case2_ends case2_sides 11 case2_entries [0; 1; 2; 3; 4] /\
  exists vmap, cut_paths case2_ends (fun m => m) [0; 1; 2; 3; 4] = Some ([[1; 3]; [0; 2; 4]], vmap) /\
  all_properties case2_ends case2_sides case2_entries 11 5 [[1; 3]; [0; 2; 4]] = Some [(true, false, false); (false, true, true)] /\
  proceed_to_fill_holes [[1; 3]; [0; 2; 4]] [(true, false, false); (false, true, true)] = false /\
  (forall s, In s [[1; 3]; [0; 2; 4]] -> no_single_exit case2_ends 11 case2_entries s) /\
  detect case2_ends (fun m => m) case2_entries 11 [[1; 3]; [0; 2; 4]] [(true, false, false); (false, true, true)] = Some [(7, [11; 12; 13])].
Proof.
  split; [exact case2_curves|]. split; [exact case2_recorded|]. eexists. split; [reflexivity|]. split; [reflexivity|]. split; [reflexivity|]. split; [|reflexivity].
  intros s [<-|[<-|[]]] a ws C v f Iv H.
  - exfalso. destruct C as (C & N & K). pose proof (chain_length _ _ _ C) as L. cbn [length app] in L. rewrite app_length in L. cbn in L. destruct ws as [|b [|c ws]]; cbn in *; [congruence| |lia].
    destruct C as [J1 [J2 _]]. destruct J1 as [J1|J1], J2 as [J2|J2]; cbn in J1, J2; congruence.
  - assert (V : forall x, In x (a :: ws) -> exists pe, entry 11 case2_entries x (pe, 7)).
    { intros x Ix. destruct C as (C & _). assert (Y : exists e, In e [0; 2; 4] /\ meets case2_ends e x). { apply (chain_meets case2_ends _ _ x C); [discriminate|]. destruct Ix as [<-|Ix]; [left; reflexivity|right; apply in_or_app; left; exact Ix]. }
      exists 2. destruct Y as (e & Ie & Me). cbn in Ie. destruct Ie as [<-|[<-|[<-|[]]]]; destruct Me as [<-|<-]; cbn; [exists 0|exists 1|exists 1|exists 2|exists 2|exists 0]; auto. }
    destruct C as (C & N & K). destruct ws as [|b ws]; [congruence|]. inversion_clear N as [|? ? Na _].
    assert (W : exists w, In w (a :: b :: ws) /\ w <> v). { destruct (Nat.eq_dec a v) as [<-|D]; [exists b; split; [right; left; reflexivity|intros ->; apply Na; left; reflexivity]|exists a; split; [left; reflexivity|exact D]]. }
    destruct W as (w & Iw & D). destruct (H w Iw D) as (pe & i & E1 & E2). destruct (V w Iw) as (pe' & j & E3 & E4). assert (i = j) by lia. subst j. rewrite E2 in E4. injection E4 as _ ->. apply V, Iv.
Qed.
(** Without the last hypothesis: the test passes over one point of the path, and reports the polygon although this point is of another face. *)
Theorem C67_skip : detect (fun e => nth e [(11, 12); (13, 12); (13, 11)] (0, 1)) (fun m => m) [(2, 7); (2, 9); (2, 7)] 11 [[0; 1; 2]] [(false, true, true)] = Some [(7, [11; 12; 13])].
Proof. reflexivity. Qed.
