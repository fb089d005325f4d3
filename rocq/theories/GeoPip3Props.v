(** Theorems about the point-in-polygon test in space, in exact arithmetic, and instances of those of [GeoPipProps]. *)
From Coq Require Import List Reals Lra Lia Bool Ascii.
From Verif Require Import GeoModel GeoSpec GeoSeg GeoPlane GeoProj GeoPip GeoStrip GeoSweep GeoEvenOdd GeoTri GeoPip3 GeoPipProps.
Import ListNotations.
Open Scope R_scope.

Ltac evalpip :=
  unfold point_in_polygon; cbn [map last px py fst snd pip_loop]; unfold rcross, lcross, rstrad, lstrad, px, py, crossing_x; cbn [fst snd];
  repeat match goal with
  | |- context [eqb ?a ?b] => let K := fresh in first [assert (K : eqb a b = false) by (apply eqb_false; unfold px, py; cbn [fst snd]; lra) | assert (K : eqb a b = true) by (apply eqb_true; unfold px, py; cbn [fst snd]; lra)]; rewrite K; clear K; cbn [andb]
  end;
  repeat match goal with
  | |- context [ltb ?a ?b] => let K := fresh in
      first [assert (K : ltb a b = false) by (apply ltb_false; unfold px, py; cbn [fst snd]; lra)
            | assert (K : ltb a b = true) by (apply ltb_true; unfold px, py; cbn [fst snd]; lra)
            | assert (K : ltb a b = false) by (apply ltb_false; unfold px, py; cbn [fst snd]; right; field)
            | assert (K : ltb a b = false) by (apply ltb_false; unfold px, py; cbn [fst snd]; right; symmetry; field)]; rewrite K; clear K; cbn [andb orb xorb]
  end; reflexivity.

(** instances: a square, with a point inside, outside, on an edge, and a vertex *)
Example C61_instance :
  let square : list (R * R) := [(0, 0); (4, 0); (4, 4); (0, 4)] in
  point_in_polygon (1, 2) square = "i"%char /\ point_in_polygon (5, 2) square = "o"%char /\
  point_in_polygon (2, 0) square = "e"%char /\ point_in_polygon (4, 4) square = "v"%char.
Proof. repeat split; evalpip. Qed.

(** a polygon with the same edge twice (a spike): the points of the edge are not reported to be on the boundary *)
Theorem C61_spike_refuted : exists (q : R * R) (ps : list (R * R)), on_boundary q ps /\ point_in_polygon q ps = "o"%char.
Proof.
  exists (6, 1), [(0, 0); (4, 0); (4, 1); (8, 1); (4, 1); (4, 4); (0, 4)]. split.
  - exists ((4, 1), (8, 1)). split; [cbn; tauto|]. exists (1 / 2). split; [lra|]. unfold at2. cbn [fst snd]. f_equal; field.
  - evalpip.
Qed.

(** In space, if the normal vector is away from the cone: 'v' exactly for the vertices, and the even-odd rule in the plane of
    the polygon for the points of that plane that are not on the boundary. *)
Theorem C62_even_odd_partial : forall (n q : R * R * R) (c : nat) (ps : list (R * R * R)),
  (c <= 2)%nat -> regular n c -> ps <> [] -> (forall p, In p ps -> dot3 n p = dot3 n q) ->
  (point_in_polygon_3d q ps n c = "v"%char <-> In q ps) /\
  (~ on_boundary3 q ps ->
    ((point_in_polygon_3d q ps n c = "i"%char /\ even_odd3 n q ps true) \/ (point_in_polygon_3d q ps n c = "o"%char /\ even_odd3 n q ps false)) /\
    exists r, dot3 n r = dot3 n q /\ beyond3 r ps /\ avoids3 q r ps).
Proof.
  intros n q c ps C Rg N Pl.
  assert (V : In (project n c q) (map (project n c) ps) <-> In q ps).
  { split; intros I; [|apply in_map, I]. apply in_map_iff in I. destruct I as (p & E & P). rewrite <- (regular_injective n c p q); auto. }
  assert (Np : map (project n c) ps <> []) by (destruct ps; [contradiction|discriminate]).
  split; [unfold point_in_polygon_3d; rewrite C61_vertex; exact V|]. intros B.
  assert (B2 : ~ on_boundary (project n c q) (map (project n c) ps)) by (intros K; apply B, (boundary_project n c C Rg q ps Pl), K).
  split.
  - destruct (C61_even_odd (project n c q) (map (project n c) ps) Np B2) as [[[E H]|[E H]] _]; [left|right]; (split; [exact E|]); apply (even_odd_project n c C Rg); auto.
  - apply (generic3_exists n c C Rg); auto. intros I. apply B2, vertex_boundary, V, I.
Qed.

Example C62_even_odd_instance :
  let ps : list (R * R * R) := [(0, 0, 5); (4, 0, 5); (4, 4, 5); (0, 4, 5)] in
  regular (0, 0, 32) 2 /\ (forall p, In p ps -> dot3 (0, 0, 32) p = dot3 (0, 0, 32) (1, 2, 5)) /\ ~ on_boundary3 (1, 2, 5) ps.
Proof.
  cbn zeta. split; [cbn; lra|]. split.
  - intros p I. cbn in I. repeat (destruct I as [<-|I] || destruct I); cbn; ring.
  - intros ([u v] & E & t & T & Q). cbn in E. destruct E as [E|[E|[E|[E|[]]]]]; injection E as <- <-; cbn in Q; injection Q; lra.
Qed.
