(** Point in polygon and the even-odd rule: proofs. *)
From Coq Require Import List Reals Lra Lia Bool Ascii.
From Verif Require Import GeoModel GeoSpec GeoSeg GeoPip GeoStrip GeoSweep.
Import ListNotations.
Open Scope R_scope.

Lemma segb_rel q u v : segb (rel q u) (rel q v) (0, 0) = segb u v q.
Proof.
  destruct (segb u v q) eqn:E.
  - apply segb_true. apply segb_true in E. destruct E as (t & T & ->). exists t. split; [exact T|]. unfold rel, at2, px, py. cbn [fst snd]. f_equal; ring.
  - destruct (segb (rel q u) (rel q v) (0, 0)) eqn:F; [|reflexivity]. apply segb_true in F. destruct F as (t & T & H). exfalso. revert E. 
    assert (K : segb u v q = true); [|rewrite K; discriminate]. apply segb_true. exists t. split; [exact T|]. unfold rel, at2, px, py in *. cbn [fst snd] in *. injection H as H1 H2. rewrite (surjective_pairing q) at 1. f_equal; lra.
Qed.

(** the two parities differ exactly by the number of edges that contain the point *)
Lemma contains_parity q ps : ~ In q ps -> parity (fun e => on_segment (fst e) (snd e) q) (edges_of ps) (xorb (esum (rc q) ps) (esum (lc q) ps)).
Proof.
  intros N.
  assert (S : esum (fun u v => xorb (xorb (rc q u v) (lc q u v)) (segb u v q)) ps = false).
  { rewrite (esum_ext _ (fun u v => xorb (phi (rel q u)) (phi (rel q v)))); [apply (esum_cob (fun u => phi (rel q u)))|].
    intros u v I. destruct (edges_in_l ps u v I) as [Iu Iv]. rewrite <- segb_rel. apply origin_edge; intros Z; apply (proj1 (rel_zero q _)) in Z; subst; contradiction. }
  rewrite !esum_xor in S. assert (E : xorb (esum (rc q) ps) (esum (lc q) ps) = esum (fun u v => segb u v q) ps).
  { destruct (esum (rc q) ps), (esum (lc q) ps), (esum (fun u v => segb u v q) ps); auto; discriminate. }
  rewrite E. apply esum_parity. intros u v _. apply segb_true.
Qed.

Lemma vertex_edge {A} (ps : list A) p : In p ps -> exists e, In e (edges_of ps) /\ snd e = p.
Proof.
  intros I. unfold edges_of. destruct ps as [|p0 ps]; [destruct I|].
  assert (K : forall (l l' : list A), length l = length l' -> forall x, In x l' -> exists y, In (y, x) (combine l l')).
  { induction l as [|a l IH]; intros [|b l'] L x X; cbn in L; try discriminate; [destruct X|]. destruct X as [->|X]; [exists a; left; reflexivity|]. destruct (IH l' ltac:(congruence) x X) as (y & Y). exists y. right. exact Y. }
  destruct (K (last (p0 :: ps) p0 :: removelast (p0 :: ps)) (p0 :: ps)) with (x := p) as (y & Y); [|exact I|exists (y, p); auto].
  cbn [length]. assert (L : forall (x : A) l, length (removelast (x :: l)) = length l). { intros x l. revert x. induction l as [|z l IH]; intros x; [reflexivity|]. change (removelast (x :: z :: l)) with (x :: removelast (z :: l)). cbn [length]. rewrite IH. reflexivity. } rewrite L. reflexivity.
Qed.
Lemma vertex_boundary q ps : In q ps -> on_boundary q ps.
Proof. intros I. destruct (vertex_edge ps q I) as (e & E & S). exists e. split; [exact E|]. rewrite <- S. apply seg_b. Qed.
Lemma parity_none {A} (P : A -> Prop) l : (forall x, In x l -> ~ P x) -> parity P l false.
Proof. induction l as [|x l IH]; intros H; [constructor|]. apply par_no; [apply H; left; reflexivity|]. apply IH. intros y Y. apply H. right. exact Y. Qed.

(** ** points beyond a line *)
Definition lin (f g : R) (p : vec2) := f * fst p + g * snd p.
Lemma lin_at f g a b t : lin f g (at2 a b t) = (1 - t) * lin f g a + t * lin f g b.
Proof. unfold lin, at2. cbn [fst snd]. ring. Qed.
Lemma lin_edge f g m ps e x : (forall p, In p ps -> lin f g p < m) -> In e (edges_of ps) -> on_segment (fst e) (snd e) x -> lin f g x < m.
Proof.
  intros H I (t & T & ->). destruct e as [u v]. destruct (edges_in_l ps u v I) as [Iu Iv]. cbn [fst snd]. rewrite lin_at. apply conv_lt; auto.
Qed.
Lemma bound_y (ps : list vec2) : exists m, 0 < m /\ forall p, In p ps -> - m < py p < m.
Proof.
  induction ps as [|p ps (m & M & IH)]; [exists 1; split; [lra|intros p []]|]. exists (m + Rabs (py p) + 1). pose proof (Rabs_pos (py p)). split; [lra|].
  intros x [<-|X]; [|specialize (IH x X); lra]. pose proof (Rle_abs (py p)). pose proof (Rle_abs (- py p)). rewrite Rabs_Ropp in *. lra.
Qed.
Lemma bound_x (ps : list vec2) : exists m, 0 < m /\ forall p, In p ps -> - m < px p < m.
Proof.
  induction ps as [|p ps (m & M & IH)]; [exists 1; split; [lra|intros p []]|]. exists (m + Rabs (px p) + 1). pose proof (Rabs_pos (px p)). split; [lra|].
  intros x [<-|X]; [|specialize (IH x X); lra]. pose proof (Rle_abs (px p)). pose proof (Rle_abs (- px p)). rewrite Rabs_Ropp in *. lra.
Qed.

(** all vertices at one side in height, or left, or right *)
Lemma rc_above r ps : (forall p, In p ps -> py r < py p) \/ (forall p, In p ps -> py p < py r) -> esum (rc r) ps = false.
Proof.
  intros H. rewrite (esum_ext _ (fun u v => xorb false false)); [apply (esum_cob (fun _ => false))|]. intros u v I. destruct (edges_in_l ps u v I) as [Iu Iv]. rewrite rc_ray. unfold ray.
  destruct H as [H|H]; pose proof (H u Iu); pose proof (H v Iv).
  - destruct (ltb_spec 0 (py u - py r)) as [[-> _]|[_ K]]; [|lra]. destruct (ltb_spec 0 (py v - py r)) as [[-> _]|[_ K]]; [|lra]. reflexivity.
  - destruct (ltb_spec 0 (py u - py r)) as [[_ K]|[-> _]]; [lra|]. destruct (ltb_spec 0 (py v - py r)) as [[_ K]|[-> _]]; [lra|]. reflexivity.
Qed.
Lemma rc_right r ps : (forall p, In p ps -> px p < px r) -> esum (rc r) ps = false.
Proof.
  intros H. rewrite (esum_ext _ (fun u v => xorb false false)); [apply (esum_cob (fun _ => false))|]. intros u v I. destruct (edges_in_l ps u v I) as [Iu Iv]. rewrite rc_ray.
  pose proof (H u Iu). pose proof (H v Iv). unfold det, rel. cbn [px py fst snd]. apply ray_left; unfold px in *; lra.
Qed.
Lemma rc_left r ps : (forall p, In p ps -> px r < px p) -> esum (rc r) ps = false.
Proof.
  intros H. rewrite (esum_ext _ (fun u v => xorb (ltb 0 (py u - py r)) (ltb 0 (py v - py r)))); [apply (esum_cob (fun u => ltb 0 (py u - py r)))|]. intros u v I. destruct (edges_in_l ps u v I) as [Iu Iv]. rewrite rc_ray.
  pose proof (H u Iu). pose proof (H v Iv). unfold det, rel. cbn [px py fst snd]. apply ray_right; unfold px in *; lra.
Qed.

Lemma beyond_off r ps : beyond r ps -> ~ on_boundary r ps.
Proof. intros (f & g & H) (e & E & S). pose proof (lin_edge f g (lin f g r) ps e r H E S). lra. Qed.

Lemma rc_beyond r ps : ps <> [] -> beyond r ps -> esum (rc r) ps = false.
Proof.
  intros NE B. pose proof B as (f & g & H). fold (lin f g r) in H.
  destruct (Req_EM_T g 0) as [->|G].
  - destruct (Rtotal_order f 0) as [F|[->|F]].
    + apply rc_left. intros p P. specialize (H p P). unfold lin in H. unfold px. nra.
    + destruct ps as [|p ps]; [congruence|]. specialize (H p (or_introl eq_refl)). unfold lin in H. lra.
    + apply rc_right. intros p P. specialize (H p P). unfold lin in H. unfold px. nra.
  - destruct (bound_y ps) as (m & M & Bm). set (T := (m + Rabs (py r)) / Rabs g). pose proof (Rabs_pos_lt g G) as Gp. pose proof (Rabs_pos (py r)) as Rp.
    assert (Tp : 0 < T) by (apply Rdiv_lt_0_compat; lra). set (r2 := (px r + T * f, py r + T * g)).
    assert (L2 : lin f g r2 = lin f g r + T * (f * f + g * g)) by (unfold lin, r2, px, py; cbn [fst snd]; ring).
    assert (Sq : 0 < f * f + g * g) by nra. assert (Sp : 0 < T * (f * f + g * g)) by (apply Rmult_lt_0_compat; assumption).
    assert (B2 : beyond r2 ps). { exists f, g. fold (lin f g r2). intros p P. specialize (H p P). fold (lin f g p) in *. lra. }
    assert (Z : esum (rc r2) ps = false).
    { apply rc_above. assert (Ty : T * Rabs g = m + Rabs (py r)) by (unfold T; field; lra).
      pose proof (Rle_abs (py r)). pose proof (Rle_abs (- py r)) as Rn. rewrite Rabs_Ropp in Rn. unfold r2. cbn [py snd]. unfold Rabs at 1 in Ty. destruct (Rcase_abs g); [left|right]; intros p P; specialize (Bm p P); unfold py in *; lra. }
    pose proof (flip r r2 ps (beyond_off r ps B) (beyond_off r2 ps B2)) as Fl. rewrite Z, xorb_false_r in Fl.
    eapply parity_fun; [apply Fl|].
    + intros p P (t & Tt & E). specialize (H p P). fold (lin f g p) in H. rewrite E, lin_at, L2 in H. nra.
    + apply parity_none. intros e E (x & (t & Tt & Ex) & S). pose proof (lin_edge f g (lin f g r) ps e x H E S) as K. rewrite Ex, lin_at, L2 in K. nra.
Qed.

(** ** the even-odd rule *)
Lemma pip_even_odd q ps : ps <> [] -> ~ on_boundary q ps ->
  (point_in_polygon q ps = "i"%char /\ even_odd q ps true) \/ (point_in_polygon q ps = "o"%char /\ even_odd q ps false).
Proof.
  intros NE B. assert (N : ~ In q ps) by (intros K; apply B, vertex_boundary, K).
  assert (X : xorb (esum (rc q) ps) (esum (lc q) ps) = false) by (eapply parity_fun; [apply contains_parity, N|apply parity_none; intros e E S; apply B; exists e; auto]).
  assert (EO : even_odd q ps (esum (rc q) ps)).
  { intros r Br A. pose proof (flip q r ps B (beyond_off r ps Br) A) as F. rewrite (rc_beyond r ps NE Br), xorb_false_r in F. exact F. }
  destruct (pip_cases q ps) as [[K _]|[_ E]]; [contradiction|]. rewrite X in E. destruct (esum (rc q) ps); [left|right]; split; auto.
Qed.

(** such points exist *)
Lemma fresh_real (l : list R) : exists y, ~ In y l.
Proof.
  assert (K : exists m, forall x, In x l -> x < m). { induction l as [|a l (m & IH)]; [exists 0; intros x []|]. exists (Rmax m (a + 1)). intros x [<-|X]; [pose proof (Rmax_r m (a + 1)); lra|specialize (IH x X); pose proof (Rmax_l m (a + 1)); lra]. }
  destruct K as (m & M). exists m. intros I. apply M in I. lra.
Qed.
Lemma generic_exists q ps : ~ In q ps -> exists r, beyond r ps /\ avoids q r ps.
Proof.
  intros N. destruct (bound_x ps) as (m & M & B). set (X := m + Rabs (px q)). assert (Xq : px q < X) by (unfold X; pose proof (Rle_abs (px q)); lra).
  destruct (fresh_real (map (fun p => py q + (py p - py q) * (X - px q) / (px p - px q)) ps)) as (y & Y). exists (X, y). split.
  - exists 1, 0. intros p P. specialize (B p P). cbn [fst snd]. unfold X, px in *. pose proof (Rabs_pos (fst q)). lra.
  - intros p P (t & T & E). apply Y. apply in_map_iff. exists p. split; [|exact P].
    assert (Nt : t <> 0) by (intros ->; rewrite at2_0 in E; subst p; contradiction). rewrite E. unfold at2, px, py in *. cbn [fst snd]. field. intros Z. assert (t * (X - fst q) = 0) by lra. apply Rmult_integral in H. lra.
Qed.
