(** Theorems about the point-in-polygon test, in exact arithmetic. *)
From Coq Require Import List Reals Lra Lia Bool Ascii.
From Verif Require Import GeoModel GeoSpec GeoSeg GeoPlane GeoProj GeoPip GeoStrip GeoSweep GeoEvenOdd GeoTri.
Import ListNotations.
Open Scope R_scope.

(** * C61: point in polygon *)

(** 'v' is returned exactly for the vertices. *)
Theorem C61_vertex : forall (q : R * R) (ps : list (R * R)), point_in_polygon q ps = "v"%char <-> In q ps.
Proof.
  intros q ps. destruct (pip_cases q ps) as [[I ->]|[I ->]]; [split; auto|]. split; [|contradiction].
  destruct (xorb (esum (rc q) ps) (esum (lc q) ps)); [discriminate|]. destruct (esum (rc q) ps); discriminate.
Qed.

(** 'e' is returned exactly for the points that are on an odd number of edges and are not vertices. *)
Theorem C61_edge : forall (q : R * R) (ps : list (R * R)),
  point_in_polygon q ps = "e"%char <-> ~ In q ps /\ parity (fun e => on_segment (fst e) (snd e) q) (edges_of ps) true.
Proof.
  intros q ps. destruct (pip_cases q ps) as [[I ->]|[I ->]]; [split; [discriminate|tauto]|]. pose proof (contains_parity q ps I) as P. split.
  - intros E. split; [exact I|]. destruct (xorb (esum (rc q) ps) (esum (lc q) ps)); [exact P|]. destruct (esum (rc q) ps); discriminate.
  - intros [_ K]. rewrite (parity_fun _ _ _ _ P K). reflexivity.
Qed.

(** For a point that is not on the boundary the result is the even-odd rule, whatever the direction used to count: 'i' if
    every segment from the point to a point beyond the polygon that avoids the vertices meets an odd number of edges, 'o' if every one
    meets an even number. *)
Theorem C61_even_odd : forall (q : R * R) (ps : list (R * R)), ps <> [] -> ~ on_boundary q ps ->
  ((point_in_polygon q ps = "i"%char /\ even_odd q ps true) \/ (point_in_polygon q ps = "o"%char /\ even_odd q ps false)) /\
  exists r, beyond r ps /\ avoids q r ps.
Proof.
  intros q ps N B. split; [apply pip_even_odd; assumption|]. apply generic_exists. intros I. apply B, vertex_boundary, I.
Qed.

(** Two points that are not on the boundary, joined by a segment that avoids the vertices, get the same code exactly if the
    segment meets an even number of edges. *)
Theorem C61_crossing : forall (q r : R * R) (ps : list (R * R)), ps <> [] -> ~ on_boundary q ps -> ~ on_boundary r ps -> avoids q r ps ->
  (point_in_polygon q ps = point_in_polygon r ps <-> parity (crosses q r) (edges_of ps) false).
Proof.
  intros q r ps N Bq Br A. pose proof (flip q r ps Bq Br A) as F. fold (crosses q r) in F.
  assert (K : forall x, ~ on_boundary x ps -> point_in_polygon x ps = if esum (rc x) ps then "i"%char else "o"%char).
  { intros x B. assert (I : ~ In x ps) by (intros Z; apply B, vertex_boundary, Z). destruct (pip_cases x ps) as [[Z _]|[_ ->]]; [contradiction|].
    rewrite (parity_fun _ _ _ _ (contains_parity x ps I) (parity_none _ _ (fun e E S => B (ex_intro _ e (conj E S))))). reflexivity. }
  rewrite (K q Bq), (K r Br). split.
  - intros E. replace false with (xorb (esum (rc q) ps) (esum (rc r) ps)); [exact F|]. destruct (esum (rc q) ps), (esum (rc r) ps); auto; discriminate.
  - intros P. pose proof (parity_fun _ _ _ _ F P) as E. destruct (esum (rc q) ps), (esum (rc r) ps); auto; discriminate.
Qed.

(** A triangle: 'i' exactly for the points strictly inside. *)
Theorem C61_triangle : forall a b c q : vec2, orient2d a b c <> 0 ->
  (point_in_polygon q [a; b; c] = "i"%char <-> inside_triangle a b c q) /\
  (point_in_polygon q [a; b; c] = "o"%char <-> ~ inside_triangle a b c q /\ ~ on_boundary q [a; b; c]).
Proof.
  intros a b c q S.
  assert (NB : inside_triangle a b c q -> ~ on_boundary q [a; b; c]).
  { intros I ([u v] & E & K). apply (inside_iff a b c q S) in I. apply seg_orient in K. cbn in E. unfold same3 in I. destruct E as [E|[E|[E|[]]]]; injection E as <- <-; cbn [fst snd] in K; lra. }
  assert (NV : In q [a; b; c] -> on_boundary q [a; b; c]) by apply vertex_boundary.
  destruct (pip_cases q [a; b; c]) as [[I E]|[I E]].
  - rewrite E. split; (split; [discriminate|]).
    + intros K. exfalso. apply (NB K), NV, I.
    + intros [_ K]. exfalso. apply K, NV, I.
  - assert (D : on_boundary q [a; b; c] \/ ~ on_boundary q [a; b; c]).
    { assert (Ds : forall u v, on_segment u v q \/ ~ on_segment u v q) by (intros u v; rewrite <- segb_true; destruct (segb u v q); [left; reflexivity|right; discriminate]).
      destruct (Ds c a) as [K1|K1]; [left; exists (c, a); cbn; auto|]. destruct (Ds a b) as [K2|K2]; [left; exists (a, b); cbn; auto|]. destruct (Ds b c) as [K3|K3]; [left; exists (b, c); cbn; auto|].
      right. intros ([u v] & Ee & K). cbn in Ee. destruct Ee as [Ee|[Ee|[Ee|[]]]]; injection Ee as <- <-; contradiction. }
    destruct D as [D|D].
    + (* on the boundary, on one edge only *)
      pose proof (contains_parity q [a; b; c] I) as P.
      assert (O : parity (fun e => on_segment (fst e) (snd e) q) (edges_of [a; b; c]) true).
      { assert (Lx : forall u v w, orient2d u v w <> 0 -> q <> v -> on_segment u v q -> on_segment v w q -> False).
        { intros u v w O Nv (t & T & E1) (s & Ts & E2). apply Nv.
          assert (t = 1 \/ s = 0) as [-> | ->]; [|rewrite E1; apply at2_1|rewrite E2; apply at2_0].
          rewrite E1 in E2. unfold at2 in E2. injection E2 as F1 F2. unfold orient2d, px, py in O.
          destruct (Req_EM_T s 0) as [|Zs]; [auto|left].
          assert (G1 : (1 - t) * (fst u - fst v) = s * (fst w - fst v)) by lra. assert (G2 : (1 - t) * (snd u - snd v) = s * (snd w - snd v)) by lra.
          assert (Z : s * ((fst u - fst w) * (snd v - snd w) - (snd u - snd w) * (fst v - fst w)) = 0).
          { replace (s * _) with ((s * (snd w - snd v)) * (fst v - fst u) + (s * (fst w - fst v)) * (snd u - snd v)) by ring. rewrite <- G1, <- G2. ring. }
          apply Rmult_integral in Z. tauto. }
        assert (Na : q <> a) by (intros ->; apply I; cbn; auto). assert (Nb : q <> b) by (intros ->; apply I; cbn; auto). assert (Nc : q <> c) by (intros ->; apply I; cbn; auto).
        assert (S1 : orient2d b c a <> 0) by (unfold orient2d in *; lra). assert (S2 : orient2d c a b <> 0) by (unfold orient2d in *; lra).
        destruct D as ([u v] & Ee & K). cbn [fst snd] in K. cbn in Ee. change (edges_of [a; b; c]) with [(c, a); (a, b); (b, c)].
        destruct Ee as [Ee|[Ee|[Ee|[]]]]; injection Ee as <- <-.
        - change true with (negb false). apply par_yes; [exact K|]. apply par_no; [intros K2; apply (Lx c a b S2 Na K K2)|]. apply par_no; [intros K2; apply (Lx b c a S1 Nc K2 K)|]. constructor.
        - apply par_no; [intros K2; apply (Lx c a b S2 Na K2 K)|]. change true with (negb false). apply par_yes; [exact K|]. apply par_no; [intros K2; apply (Lx a b c S Nb K K2)|]. constructor.
        - apply par_no; [intros K2; apply (Lx b c a S1 Nc K K2)|]. apply par_no; [intros K2; apply (Lx a b c S Nb K2 K)|]. change true with (negb false). apply par_yes; [exact K|]. constructor. }
      rewrite E, (parity_fun _ _ _ _ P O). split; (split; [discriminate|]); [intros K; exfalso; apply (NB K), D|intros [_ K]; contradiction].
    + rewrite E, (parity_fun _ _ _ _ (contains_parity q _ I) (parity_none _ _ (fun e Ee Se => D (ex_intro _ e (conj Ee Se))))).
      pose proof (pip_triangle a b c q S D) as T. rewrite <- (inside_iff a b c q S) in T. destruct (esum (rc q) [a; b; c]).
      * assert (T' : inside_triangle a b c q) by (apply T; reflexivity). split; split; try discriminate; try tauto.
      * assert (T' : ~ inside_triangle a b c q) by (intros K; apply T in K; discriminate). split; split; try discriminate; try tauto.
Qed.
