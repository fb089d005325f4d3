(** C74: two triangles that cross, which C74_two_points is about. *)
From Coq Require Import List Reals Lra Lia Bool Ascii.
From Verif Require Import SplitModel PointsModel JoinModel GeoModel GeoSpec GeoSeg GeoPlane GeoProj GeoPip GeoTri GeoPip3 GeoPipProps GeoProps PointsGeo JoinGeo.
Import ListNotations.
Open Scope R_scope.

(** The point that the code looks for between the two is the one of C74_two_points. *)
Theorem C74_middle : forall p q : vec, JoinModel.midpoint (fun x => x) p q = at3 p q (1 / 2).
Proof. intros [[p1 p2] p3] [[q1 q2] q3]. cbn. f_equal; [f_equal|]; field. Qed.

Definition flat_a : vec3 := (0, 0, 0). Definition flat_b : vec3 := (4, 0, 0). Definition flat_d : vec3 := (2, 3, 0).
Definition tall_a : vec3 := (1, 1, -1). Definition tall_b : vec3 := (1, 1, 1). Definition tall_d : vec3 := (1, -2, 1 / 2).

Lemma flat_line : ~ on_a_line flat_a flat_b flat_d.
Proof. intros [X|(t & X)]; [injection X; lra|cbn in X; injection X; lra]. Qed.
Lemma tall_line : ~ on_a_line tall_a tall_b tall_d.
Proof. intros [X|(t & X)]; [injection X; lra|cbn in X; injection X; lra]. Qed.
Lemma flat_regular : regular_triangle flat_a flat_b flat_d.
Proof.
  intros n dc c E. assert (X : cross_product (vsub flat_b flat_a) (vsub flat_d flat_a) = (0, 0, 12)) by (cbn; f_equal; [f_equal|]; ring). pose proof (proj1 (C63_coefficients _ _ _ _ E)) as [C M]. assert (Y : n = (0, 0, 12)) by (etransitivity; [|exact X]; exact (f_equal (fun x => match x with Some (n, _, _) => n | None => n end) (eq_trans (eq_sym E) (proj1 (C63_triangle flat_a flat_b flat_d))))). clear E X. subst n.
  specialize (M 2%nat (le_n 2)). destruct c as [|[|[|k]]]; [cbn in M; rewrite Rabs_R0, (Rabs_pos_eq 12) in M; lra|cbn in M; rewrite Rabs_R0, (Rabs_pos_eq 12) in M; lra|cbn; lra|lia].
Qed.
Lemma tall_regular : regular_triangle tall_a tall_b tall_d.
Proof.
  intros n dc c E. assert (X : cross_product (vsub tall_b tall_a) (vsub tall_d tall_a) = (6, 0, 0)) by (cbn; f_equal; [f_equal|]; field). pose proof (proj1 (C63_coefficients _ _ _ _ E)) as [C M]. assert (Y : n = (6, 0, 0)) by (etransitivity; [|exact X]; exact (f_equal (fun x => match x with Some (n, _, _) => n | None => n end) (eq_trans (eq_sym E) (proj1 (C63_triangle tall_a tall_b tall_d))))). clear E X. subst n.
  specialize (M 0%nat ltac:(lia)). destruct c as [|[|[|k]]]; [cbn; lra|cbn in M; rewrite Rabs_R0, (Rabs_pos_eq 6) in M; lra|cbn in M; rewrite Rabs_R0, (Rabs_pos_eq 6) in M; lra|lia].
Qed.
Lemma flat_z x : in_triangle flat_a flat_b flat_d x -> snd x = 0.
Proof. intros (u & v & w & _ & _ & _ & _ & ->). cbn. ring. Qed.
Lemma tall_x x : in_triangle tall_a tall_b tall_d x -> fst (fst x) = 1.
Proof. intros (u & v & w & _ & _ & _ & S & ->). cbn. lra. Qed.

Lemma flat_results e rs : In e (edges_of [tall_a; tall_b; tall_d]) -> triangle_test flat_a flat_b flat_d (fst e) (snd e) rs -> rs <> Violation.
Proof.
  intros I T ->. pose proof (proj2 (C73_triangle_partial _ _ _ _ _ flat_line flat_regular) _ T) as [V|[V|(t & U & V)]].
  - apply flat_z in V. cbn in I. destruct I as [<-|[<-|[<-|[]]]]; cbn in V; lra.
  - apply flat_z in V. cbn in I. destruct I as [<-|[<-|[<-|[]]]]; cbn in V; lra.
  - pose proof (flat_z _ (boundary_in _ _ _ _ V)) as Z. destruct V as ([q r] & J & s & W & X). cbn in I. destruct I as [<-|[<-|[<-|[]]]]; cbn in Z; try (exfalso; lra); cbn in J; destruct J as [J|[J|[J|[]]]]; injection J as <- <-; cbn in X; injection X; intros; lra.
Qed.
Lemma tall_results e rs : In e (edges_of [flat_a; flat_b; flat_d]) -> triangle_test tall_a tall_b tall_d (fst e) (snd e) rs -> rs <> Violation.
Proof.
  intros I T ->. pose proof (proj2 (C73_triangle_partial _ _ _ _ _ tall_line tall_regular) _ T) as [V|[V|(t & U & V)]].
  - apply tall_x in V. cbn in I. destruct I as [<-|[<-|[<-|[]]]]; cbn in V; lra.
  - apply tall_x in V. cbn in I. destruct I as [<-|[<-|[<-|[]]]]; cbn in V; lra.
  - pose proof (tall_x _ (boundary_in _ _ _ _ V)) as Z. destruct V as ([q r] & J & s & W & X). cbn in I. destruct I as [<-|[<-|[<-|[]]]]; cbn in Z; try (exfalso; lra); cbn in J; destruct J as [J|[J|[J|[]]]]; injection J as <- <-; cbn in X; injection X; intros; lra.
Qed.
Lemma all_tests (a b d : vec3) : ~ on_a_line a b d -> regular_triangle a b d -> forall l : list (vec3 * vec3), exists rs, Forall2 (fun e res => triangle_test a b d (fst e) (snd e) res) l rs.
Proof.
  intros L RG l. induction l as [|e l [rs IH]]; [exists []; constructor|]. destruct (proj1 (C73_triangle_partial a b d (fst e) (snd e) L RG)) as [r T]. exists (r :: rs). constructor; assumption.
Qed.
Lemma none_in (P : vec3 * vec3 -> result -> Prop) l rs : Forall2 P l rs -> (forall e r, In e l -> P e r -> r <> Violation) -> ~ In Violation rs.
Proof.
  intros F N I. induction F as [|e r l rs F1 F IH]; [destruct I|]. destruct I as [E|I]; [apply (N e r (or_introl eq_refl) F1 E)|apply IH; [intros; eapply N; [right; eassumption|assumption]|exact I]].
Qed.

(** The triangles cross in the line from (1, 0, 0) to (1, 1, 0). *)
Theorem C74_two_points_case : ~ on_a_line flat_a flat_b flat_d /\ ~ on_a_line tall_a tall_b tall_d /\ regular_triangle flat_a flat_b flat_d /\ regular_triangle tall_a tall_b tall_d /\
  ~ (on_plane flat_a flat_b flat_d tall_a /\ on_plane flat_a flat_b flat_d tall_b /\ on_plane flat_a flat_b flat_d tall_d) /\
  exists rs rs', Forall2 (fun e res => triangle_test flat_a flat_b flat_d (fst e) (snd e) res) (edges_of [tall_a; tall_b; tall_d]) rs /\
    Forall2 (fun e res => triangle_test tall_a tall_b tall_d (fst e) (snd e) res) (edges_of [flat_a; flat_b; flat_d]) rs' /\ ~ In Violation (rs ++ rs') /\ length (hits (rs ++ rs')) = 2%nat.
Proof.
  split; [exact flat_line|]. split; [exact tall_line|]. split; [exact flat_regular|]. split; [exact tall_regular|].
  assert (NP : ~ (on_plane flat_a flat_b flat_d tall_a /\ on_plane flat_a flat_b flat_d tall_b /\ on_plane flat_a flat_b flat_d tall_d)) by (intros ((s & t & X) & _); cbn in X; injection X; lra).
  split; [exact NP|]. destruct (all_tests _ _ _ flat_line flat_regular (edges_of [tall_a; tall_b; tall_d])) as [rs T]. destruct (all_tests _ _ _ tall_line tall_regular (edges_of [flat_a; flat_b; flat_d])) as [rs' T'].
  exists rs, rs'. split; [exact T|]. split; [exact T'|].
  assert (NV : ~ In Violation (rs ++ rs')) by (intros I; apply in_app_iff in I; destruct I as [I|I]; revert I; [eapply none_in; [exact T|]; intros e r I X; eapply flat_results; eassumption|eapply none_in; [exact T'|]; intros e r I X; eapply tall_results; eassumption]).
  split; [exact NV|]. destruct (C74_two_points _ _ _ _ _ _ flat_line tall_line flat_regular tall_regular NP rs rs' T T' NV) as [[_ N]|(p & q & H & _)]; [|rewrite H; reflexivity].
  exfalso. apply (N (1, 1, 0)). split; [exists (1 / 2 + 1/12), (1/12), (1/3)|exists (1/2), (1/2), 0]; repeat (split; [lra|]); cbn; f_equal; try (f_equal; lra); lra.
Qed.
