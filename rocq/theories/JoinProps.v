(** C74: joining the intersection points. *)
From Coq Require Import List Arith Bool Lia Permutation Sorting Reals Lra.
From Verif Require Import CutModel CutProofs SplitModel SplitSpec SplitProofs SplitGeo PointsSpec JoinModel JoinSpec JoinProofs.
Import ListNotations.
Open Scope nat_scope.

(** ** The order of the points of two faces, in exact arithmetic *)
Lemma sorted_rev {A} (Rel : A -> A -> Prop) l : StronglySorted Rel l -> StronglySorted (fun a b => Rel b a) (rev l).
Proof.
  intros S. induction S as [|x l S IH F]; [constructor|]. cbn [rev]. clear S. rewrite Forall_forall in F. assert (F' : forall y, In y (rev l) -> Rel x y) by (intros y I; apply F, in_rev, I). clear F. induction IH as [|y r IH IH' F]; [repeat constructor|]. cbn. constructor; [apply IH'; intros; apply F'; right; assumption|]. rewrite Forall_forall in *. intros z I. apply in_app_iff in I. destruct I as [I|[<-|[]]]; [apply F, I|]. apply F'. left. reflexivity.
Qed.
Lemma sorted_impl {A} (Rel Rel' : A -> A -> Prop) l : (forall x y, In x l -> In y l -> Rel x y -> Rel' x y) -> StronglySorted Rel l -> StronglySorted Rel' l.
Proof. intros H S. induction S as [|x l S IH F]; [constructor|]. constructor; [apply IH; intros; apply H; auto; right; assumption|]. rewrite Forall_forall in *. intros y I. apply H; [left; reflexivity|right; exact I|apply F, I]. Qed.
Lemma in_line_NoDup position row : in_line position row -> NoDup row.
Proof.
  intros (o & d & ratio & _ & _ & S). induction S as [|x l S IH F]; constructor; [|exact IH]. intros I. rewrite Forall_forall in F. specialize (F x I). lra.
Qed.
Lemma exact_row sort position l row : sorting sort -> Permutation row l -> in_line position row -> 2 <= length l ->
  exists r, linear_projection_sort (fun x => x) sort (map (fun v => (v, position v)) l) = Some r /\ (r = row \/ r = rev row).
Proof.
  intros SO P (o & d & ratio & OD & ON & SS) L. destruct l as [|a [|b l]]; [cbn in L; lia|cbn in L; lia|]. set (l0 := a :: b :: l) in *.
  assert (IA : In a row) by (eapply Permutation_in; [symmetry; exact P|left; reflexivity]). assert (IB : In b row) by (eapply Permutation_in; [symmetry; exact P|right; left; reflexivity]).
  assert (AB : a <> b). { assert (N : NoDup l0) by (eapply Permutation_NoDup; [exact P|]; apply (in_line_NoDup position); exists o, d, ratio; auto). intros ->. inversion_clear N as [|? ? N1 _]. apply N1. left. reflexivity. }
  assert (RAB : ratio a <> ratio b). { clear - SS IA IB AB. induction SS as [|x r S IH F]; [destruct IA|]. rewrite Forall_forall in F. destruct IA as [->|IA], IB as [->|IB]; [congruence| | |exact (IH IA IB)]; [specialize (F b IB)|specialize (F a IA)]; lra. }
  set (t := fun v => ((ratio v - ratio a) / (ratio b - ratio a))%R).
  assert (PT : forall v, In v row -> position v = between_ratio (position a) (position b) (t v)).
  { intros v I. rewrite (ON v I), (ON a IA), (ON b IB). unfold t. destruct o as [[x y] z], d as [[x' y'] z']. cbn. f_equal; [f_equal|]; field; lra. }
  assert (PAB : position a <> position b).
  { rewrite (ON a IA), (ON b IB). intros E. apply OD. destruct o as [[x y] z], d as [[x' y'] z']. cbn in E. injection E as E1 E2 E3. assert (K : forall u : R, (ratio a * u = ratio b * u)%R -> u = 0%R) by (intros u H; assert ((ratio a - ratio b) * u = 0)%R by lra; apply Rmult_integral in H0; lra). f_equal; [f_equal|]; [assert (x' - x = 0)%R by (apply K; lra)|assert (y' - y = 0)%R by (apply K; lra)|assert (z' - z = 0)%R by (apply K; lra)]; lra. }
  destruct (exact_projection (position a) (position b) PAB) as (M & MP & KP). set (key := fun v => projection (fun x => x) (position a) (position b) (position v)).
  assert (KV : forall v, In v row -> key v = (t v * M)%R) by (intros v I; unfold key; rewrite (PT v I); apply KP).
  assert (LP : forall r, Permutation l0 r -> StronglySorted (fun v w => (key v < key w)%R) r -> linear_projection_sort (fun x => x) sort (map (fun v => (v, position v)) l0) = Some r).
  { intros r Pr Sr. unfold linear_projection_sort, l0. cbn [map fst snd]. f_equal. rewrite map_map. cbn [fst snd]. exact (sorted_by sort key l0 r SO Pr Sr). }
  destruct (Rlt_dec (ratio a) (ratio b)) as [LT|GE].
  - exists row. split; [|auto]. apply LP; [symmetry; exact P|]. revert SS. apply sorted_impl. intros v w Iv Iw VW. rewrite (KV v Iv), (KV w Iw). apply Rmult_lt_compat_r; [exact MP|]. unfold t. apply Rmult_lt_compat_r; [apply Rinv_0_lt_compat; lra|lra].
  - exists (rev row). split; [|auto]. apply LP; [etransitivity; [symmetry; exact P|apply Permutation_rev]|]. apply sorted_rev in SS. revert SS. apply sorted_impl. intros v w Iv Iw VW. apply in_rev in Iv, Iw. rewrite (KV v Iv), (KV w Iw). apply Rmult_lt_compat_r; [exact MP|]. unfold t, Rdiv.
    assert (X : (/ (ratio b - ratio a) < 0)%R) by (apply Rinv_lt_0_compat; lra). assert (Y : (0 < (ratio v - ratio w) * - / (ratio b - ratio a))%R) by (apply Rmult_lt_0_compat; lra). lra.
Qed.
Lemma next_to_rev p q row : next_to p q (rev row) -> next_to p q row.
Proof. intros (l & l' & [E|E]); apply (f_equal (@rev nat)) in E; rewrite rev_involutive, rev_app_distr in E; cbn in E; rewrite <- !app_assoc in E; exists (rev l'), (rev l); [right|left]; exact E. Qed.
Lemma next_to_neighbours p q row : next_to p q row <-> In (p, q) (neighbours row) \/ In (q, p) (neighbours row).
Proof. rewrite !neighbours_In. split; [intros (l & l' & [E|E]); eauto|intros [(l & l' & E)|(l & l' & E)]; exists l, l'; auto]. Qed.

Section C74.
Variable sort : list (nat * R) -> list (nat * R).
Variable position : nat -> vec.
Variable psf : nat -> option nat * option nat.
Variable registry : list (nat * nat).
Variable cnt : nat.
Variable faces_around : nat -> list nat.
Variable inside : nat -> vec -> bool.
Notation on := (lies_on (faces psf) cnt registry).
Notation middle := (fun f p q => inside f (midpoint (fun x => x) (position p) (position q)) = true).
Notation join_points := (join_points (fun x => x) sort position psf registry cnt faces_around inside).
Hypothesis SO : sorting sort.
(** An edge and the face it crosses are of different meshes, and the two faces of an edge are different. *)
Hypothesis distinct : forall e f, In (e, f) registry -> NoDup (f :: faces psf e).
(** The table gives for pairs of faces the points that are on both; with the points of each pair in order along the line. *)
Variables (table : list ((nat * nat) * list nat)) (rows : list (list nat)).
Hypothesis TB : forall g h l v, In ((g, h), l) table -> In v l -> on v g /\ on v h.
Hypothesis RW : Forall2 (fun entry row => Permutation row (snd entry) /\ in_line position row) table rows.

Lemma on_valid v f : on v f -> valid registry cnt v.
Proof. intros (e & g & (L & N) & _). assert (v - cnt < length registry) by (apply nth_error_Some; congruence). unfold valid. lia. Qed.
(** The points are joined as they have to be, whatever the order of the table - provided that, where exactly two points are on two faces, they are on no other face together and the line between them is inside the two faces. *)
Theorem C74_joined_partial :
  (forall g h p q, In ((g, h), [p; q]) table -> g <> h /\ (forall f, on p f /\ on q f -> f = g \/ f = h) /\ middle g p q /\ middle h p q) ->
  exists s, join_points table = Some s /\ are_joined on middle rows (edges s) (lookup (iface s)) (get (incoming s)) /\
    NoDup (map fst (iface s)) /\ NoDup (map fst (incoming s)) /\ same s = [] /\ along s = [].
Proof.
  intros TW.
  assert (RR : exists rows', Forall2 (fun row row' => row' = row \/ row' = rev row) rows rows' /\
     Forall2 (fun entry row => row_of (fun x => x) sort position entry = Some row /\ NoDup row /\ (forall v, In v row -> valid registry cnt v) /\ forall p q, snd entry = [p; q] -> two_faces (fun x => x) position psf registry cnt inside (fst (fst entry)) (snd (fst entry)) p q) table rows').
  { clear - SO TB RW TW. pose proof RW as RW'. clear RW. revert TB TW. induction RW' as [|[[g h] l] row table rows [P IL] F IH]; intros TB TW; [exists []; split; constructor|].
    destruct IH as (rows' & IH1 & IH2); [intros; eapply TB; [right|]; eassumption|intros; apply TW; right; assumption|]. cbn [snd] in P.
    assert (R1 : exists row', row_of (fun x => x) sort position ((g, h), l) = Some row' /\ (row' = row \/ row' = rev row)).
    { unfold row_of. cbn [snd]. destruct l as [|a [|b [|c l]]].
      - exists []. apply Permutation_sym, Permutation_nil in P. subst. auto.
      - exists [a]. apply Permutation_sym, Permutation_length_1_inv in P. subst. auto.
      - exists [a; b]. apply Permutation_sym, Permutation_length_2_inv in P. destruct P as [-> | ->]; auto.
      - destruct (exact_row sort position (a :: b :: c :: l) row SO P IL) as (r & E & D); [cbn; lia|]. exists r. auto. }
    destruct R1 as (row' & E & D). exists (row' :: rows'). split; [constructor; auto|]. constructor; [|exact IH2]. split; [exact E|].
    assert (PP : Permutation row' l) by (destruct D as [-> | ->]; [exact P|etransitivity; [symmetry; apply Permutation_rev|exact P]]).
    split; [destruct D as [-> | ->]; [|apply NoDup_rev]; apply (in_line_NoDup position), IL|]. split.
    - intros v I. apply (on_valid v g). apply (TB g h l v); [left; reflexivity|eapply Permutation_in; eassumption].
    - intros p q Q. cbn [fst snd] in *. subst l. destruct (TW g h p q (or_introl eq_refl)) as (GH & SH & MG & MH). split; [exact GH|]. split; [|split; assumption]. intros f. split; [apply SH|].
      assert (OP : on p g /\ on p h) by (apply (TB g h [p; q] p); left; reflexivity). assert (OQ : on q g /\ on q h) by (apply (TB g h [p; q] q); [left; reflexivity|right; left; reflexivity]). intros [-> | ->]; split; try apply OP; apply OQ. }
  destruct RR as (rows' & RR & FF). destruct (join_points_spec (fun x => x) sort position psf registry cnt faces_around inside distinct table rows' FF) as (s & E & I). exists s. split; [exact E|].
  assert (NX : forall p q, (exists row, In row rows /\ next_to p q row) <-> In (p, q) (flat_map neighbours rows') \/ In (q, p) (flat_map neighbours rows')).
  { intros p q. clear - RR. induction RR as [|row row' rows rows' D F IH]; [split; [intros (r & [] & _)|intros [[]|[]]]|]. cbn [flat_map]. rewrite !in_app_iff.
    assert (DD : next_to p q row <-> In (p, q) (neighbours row') \/ In (q, p) (neighbours row')). { rewrite <- next_to_neighbours. destruct D as [-> | ->]; [reflexivity|]. split; [|apply next_to_rev]. intros H. apply next_to_rev. rewrite rev_involutive. exact H. }
    split.
    - intros (r & [<-|I] & N); [apply DD in N; tauto|]. assert (X : exists row, In row rows /\ next_to p q row) by eauto. apply IH in X. tauto.
    - intros H. assert (X : (In (p, q) (neighbours row') \/ In (q, p) (neighbours row')) \/ (In (p, q) (flat_map neighbours rows') \/ In (q, p) (flat_map neighbours rows'))) by tauto. destruct X as [X|X]; [exists row; split; [left; reflexivity|apply DD, X]|]. apply IH in X. destruct X as (r & X1 & X2). exists r. split; [right; exact X1|exact X2]. }
  destruct I as [I1 I2 I3 I4 I5]. split; [|exact I5]. constructor; [|exact I2|exact I3|exact I4]. intros p q. rewrite (I1 p q). unfold tried, wanted. rewrite NX. reflexivity.
Qed.
End C74.

(** ** Meshes where two faces have at most one edge in common, e.g. of triangles *)
Section Simple.
Variable sort : list (nat * R) -> list (nat * R).
Variable position : nat -> vec.
Variable psf : nat -> option nat * option nat.
Variable registry : list (nat * nat).
Variable cnt : nat.
Variable faces_around : nat -> list nat.
Variable inside : nat -> vec -> bool.
Variable of_cut_mesh : nat -> bool.
Notation on := (lies_on (faces psf) cnt registry).
Notation middle := (fun f p q => inside f (midpoint (fun x => x) (position p) (position q)) = true).
(** Every intersection point belongs to another pair of an edge and a face of the other mesh. *)
Hypothesis once : NoDup registry.
Hypothesis other_mesh : forall e f g, In (e, f) registry -> In g (faces psf e) -> of_cut_mesh g = negb (of_cut_mesh f).
Hypothesis different : forall e f, In (e, f) registry -> NoDup (faces psf e).
(** Two faces have at most one edge in common. *)
Hypothesis one_edge : forall e e' g h, g <> h -> In g (faces psf e) -> In h (faces psf e) -> In g (faces psf e') -> In h (faces psf e') -> e = e'.

Lemma only_two p q g h f : p <> q -> g <> h -> on p g -> on p h -> on q g -> on q h -> of_cut_mesh g = negb (of_cut_mesh h) -> on p f -> on q f -> f = g \/ f = h.
Proof.
  intros PQ GH (e & k & (L & N) & Pg) Ph (e' & k' & (L' & N') & Qg) Qh OM Pf Qf.
  assert (U : forall v e k x, is_point cnt registry v e k -> on v x -> x = k \/ In x (faces psf e)). { intros v e0 k0 x (_ & N0) (e1 & k1 & (_ & N1) & D). rewrite N0 in N1. injection N1 as <- <-. exact D. }
  apply (U p e k h (conj L N)) in Ph. apply (U p e k f (conj L N)) in Pf. apply (U q e' k' h (conj L' N')) in Qh. apply (U q e' k' f (conj L' N')) in Qf. clear U.
  destruct (Nat.eq_dec f g) as [Fg|Fg]; [auto|]. destruct (Nat.eq_dec f h) as [Fh|Fh]; [auto|]. exfalso.
  pose proof (nth_error_In _ _ N) as I. pose proof (nth_error_In _ _ N') as I'.
  assert (DIFF : (e, k) <> (e', k')). { intros X. apply PQ. rewrite X in N. assert (p - cnt = q - cnt); [|lia]. eapply NoDup_nth_error; [exact once|apply nth_error_Some; congruence|congruence]. }
  (* the point p has one face of one mesh and two of the other *)
  assert (MX : forall e k, In (e, k) registry -> forall x, x = k \/ In x (faces psf e) -> (of_cut_mesh x = of_cut_mesh k -> x = k) /\ (of_cut_mesh x <> of_cut_mesh k -> In x (faces psf e))).
  { intros e0 k0 I0 x [->|X]; [split; [reflexivity|congruence]|]. pose proof (other_mesh e0 k0 x I0 X) as M. split; [|auto]. intros E. rewrite E in M. destruct (of_cut_mesh k0); discriminate. }
  assert (C : forall u w, u <> w -> f <> u -> f <> w -> of_cut_mesh u = negb (of_cut_mesh w) -> of_cut_mesh f = of_cut_mesh w -> u = k \/ In u (faces psf e) -> w = k \/ In w (faces psf e) -> u = k' \/ In u (faces psf e') -> w = k' \/ In w (faces psf e') -> False).
  { intros u w UW FU FW UM FM Pu Pw Qu Qw.
    assert (Ku : u = k). { destruct (MX e k I w Pw) as [A1 _]. destruct (MX e k I f Pf) as [B1 _]. destruct (MX e k I u Pu) as [D1 _]. destruct (bool_dec (of_cut_mesh w) (of_cut_mesh k)) as [E|E]; [exfalso; apply FW; rewrite (A1 E), (B1 (eq_trans FM E)); reflexivity|]. apply D1. rewrite UM. destruct (of_cut_mesh w), (of_cut_mesh k); cbn in *; congruence. }
    assert (Ku' : u = k'). { destruct (MX e' k' I' w Qw) as [A1 _]. destruct (MX e' k' I' f Qf) as [B1 _]. destruct (MX e' k' I' u Qu) as [D1 _]. destruct (bool_dec (of_cut_mesh w) (of_cut_mesh k')) as [E|E]; [exfalso; apply FW; rewrite (A1 E), (B1 (eq_trans FM E)); reflexivity|]. apply D1. rewrite UM. destruct (of_cut_mesh w), (of_cut_mesh k'); cbn in *; congruence. }
    apply DIFF. f_equal; [|congruence].
    destruct Pw as [X|Pw]; [congruence|]. destruct Qw as [X|Qw]; [congruence|]. destruct Pf as [X|Pf]; [congruence|]. destruct Qf as [X|Qf]; [congruence|]. apply (one_edge e e' f w); assumption. }
  destruct (bool_dec (of_cut_mesh f) (of_cut_mesh h)) as [E|E].
  - apply (C g h); auto.
  - apply (C h g); auto; [rewrite OM; destruct (of_cut_mesh h); reflexivity|]. rewrite OM. destruct (of_cut_mesh f), (of_cut_mesh h); cbn; congruence.
Qed.
Lemma simple_distinct e f : In (e, f) registry -> NoDup (f :: faces psf e).
Proof. intros I. constructor; [|eapply different; exact I]. intros X. pose proof (other_mesh e f f I X) as Y. destruct (of_cut_mesh f); discriminate. Qed.

(** Then every two points that have to be joined are, provided that two points that are alone on two faces are joined by a line inside them. *)
Theorem C74_simple_partial (table : list ((nat * nat) * list nat)) (rows : list (list nat)) : sorting sort ->
  (forall g h l, In ((g, h), l) table -> of_cut_mesh g = negb (of_cut_mesh h) /\ forall v, In v l -> on v g /\ on v h) ->
  Forall2 (fun entry row => Permutation row (snd entry) /\ in_line position row) table rows ->
  (forall g h p q, In ((g, h), [p; q]) table -> middle g p q /\ middle h p q) ->
  exists s, join_points (fun x => x) sort position psf registry cnt faces_around inside table = Some s /\ are_joined on middle rows (edges s) (lookup (iface s)) (get (incoming s)) /\
    NoDup (map fst (iface s)) /\ NoDup (map fst (incoming s)) /\ same s = [] /\ along s = [].
Proof.
  intros SO TB RW MD. apply C74_joined_partial; auto using simple_distinct; [intros g h l v I J; apply (TB g h l I), J|].
  intros g h p q I. destruct (TB g h [p; q] I) as [OM ON]. assert (GH : g <> h) by (intros ->; destruct (of_cut_mesh h); discriminate). split; [exact GH|]. split; [|apply MD, I]. intros f [A B].
  assert (PQ : p <> q). { clear - RW I. induction RW as [|entry row table rows [P IL] F IH]; [destruct I|]. destruct I as [->|I]; [|exact (IH I)]. apply in_line_NoDup in IL. cbn in P. assert (N : NoDup [p; q]) by (eapply Permutation_NoDup; eassumption). intros ->. inversion_clear N as [|? ? N1 _]. apply N1. left. reflexivity. }
  apply (only_two p q g h f); auto; try apply ON; cbn; auto.
Qed.
(** If moreover every two faces that meet have two points (triangles), every such pair of faces gets one edge, and the edges of a face are those of its pairs. *)
Theorem C74_triangles (table : list ((nat * nat) * (nat * nat))) : NoDup (map fst table) ->
  (forall g h p q, In ((g, h), (p, q)) table -> g < h /\ of_cut_mesh g = negb (of_cut_mesh h) /\ p <> q /\ on p g /\ on p h /\ on q g /\ on q h) ->
  forall rnd, exists s, join_points rnd sort position psf registry cnt faces_around inside (map (fun entry => (fst entry, [fst (snd entry); snd (snd entry)])) table) = Some s /\
    edges s = map snd table /\
    lists (lookup (iface s)) (fun e f => exists g h x, nth_error table e = Some ((g, h), x) /\ (f = g \/ f = h)) /\
    (forall v, get (incoming s) v = flat_map (ending_at v) (combine (seq 0 (length table)) (map snd table))).
Proof.
  intros ND TB rnd. 
  set (all := fun (f : nat) (x : vec) => true).
  (* the faces that contain the middle do not matter *)
  assert (ST : forall tb s, join_points rnd sort position psf registry cnt faces_around inside (map (fun entry : (nat * nat) * (nat * nat) => (fst entry, [fst (snd entry); snd (snd entry)])) tb) = Some s <-> join_points rnd sort position psf registry cnt faces_around all (map (fun entry => (fst entry, [fst (snd entry); snd (snd entry)])) tb) = Some s).
  { intros tb s. unfold join_points. assert (G : forall s0, fold_left (fun s entry => let* s := s in join_entry rnd sort position psf registry cnt faces_around inside s entry) (map (fun entry : (nat * nat) * (nat * nat) => (fst entry, [fst (snd entry); snd (snd entry)])) tb) s0 = fold_left (fun s entry => let* s := s in join_entry rnd sort position psf registry cnt faces_around all s entry) (map (fun entry => (fst entry, [fst (snd entry); snd (snd entry)])) tb) s0) by (induction tb as [|x tb IH]; intros s0; [reflexivity|]; cbn [map fold_left]; rewrite IH; reflexivity). rewrite G. reflexivity. }
  assert (TW : forall g h p q, In ((g, h), (p, q)) table -> two_faces rnd position psf registry cnt all g h p q).
  { intros g h p q I. destruct (TB g h p q I) as (GH & OM & PQ & A & B & C & D). split; [lia|]. split; [|split; reflexivity]. intros f. split; [intros [X Y]; apply (only_two p q g h f); auto; lia|]. intros [-> | ->]; auto. }
  assert (VA : forall v f, on v f -> valid registry cnt v) by (intros v f (e & g & (L & N) & _); assert (v - cnt < length registry) by (apply nth_error_Some; congruence); unfold valid; lia).
  (* all the edges are new *)
  assert (G : forall done rest s, table = done ++ rest -> Inv rnd position psf registry cnt all (map snd done) s -> edges s = map snd done -> exists s', fold_left (fun s entry => let* s := s in join_entry rnd sort position psf registry cnt faces_around all s entry) (map (fun entry => (fst entry, [fst (snd entry); snd (snd entry)])) rest) (Some s) = Some s' /\ Inv rnd position psf registry cnt all (map snd table) s' /\ edges s' = map snd table).
  { intros done rest. revert done. induction rest as [|[[g h] [p q]] rest IH]; intros done s E I ES; [exists s; rewrite E, app_nil_r; auto|]. cbn [map fold_left bind fst snd].
    assert (IT : In ((g, h), (p, q)) table) by (rewrite E; apply in_app_iff; right; left; reflexivity). destruct (TB g h p q IT) as (GH & OM & PQ & A & B & C & D).
    assert (NEW : edge_exists (edges s) p q = false).
    { apply not_true_iff_false. intros X. apply exists_spec in X. destruct X as (e & X). rewrite ES in X. assert (Y : In (p, q) (map snd done) \/ In (q, p) (map snd done)) by (destruct X as [X|X]; apply nth_error_In in X; auto).
      assert (Z : exists g' h' p' q', In ((g', h'), (p', q')) done /\ ((p', q') = (p, q) \/ (p', q') = (q, p))) by (destruct Y as [Y|Y]; apply in_map_iff in Y; destruct Y as ([[g' h'] [p' q']] & Q & Y); cbn in Q; exists g', h', p', q'; auto).
      destruct Z as (g' & h' & p' & q' & Z1 & Z2). assert (IT' : In ((g', h'), (p', q')) table) by (rewrite E; apply in_app_iff; auto). destruct (TB g' h' p' q' IT') as (GH' & OM' & PQ' & A' & B' & C' & D').
      assert (GG : forall x, (x = g' \/ x = h') -> x = g \/ x = h). { intros x X0. assert (O : on p x /\ on q x) by (destruct Z2 as [[= -> ->]|[= -> ->]]; destruct X0 as [-> | ->]; auto). apply (only_two p q g h x); auto; try lia; apply O. }
      assert (g' = g /\ h' = h) as [-> ->] by (pose proof (GG g' (or_introl eq_refl)); pose proof (GG h' (or_intror eq_refl)); lia).
      rewrite E, map_app in ND. apply in_split in Z1. destruct Z1 as (d1 & d2 & ->). rewrite map_app in ND. cbn [map fst] in ND. rewrite <- app_assoc in ND. apply NoDup_remove_2 in ND. apply ND. apply in_app_iff. right. apply in_app_iff. right. left. reflexivity. }
    pose proof (join_two_spec rnd position psf registry cnt faces_around all (map snd done) s g h p q I (VA p g A) (VA q g C) PQ (TW g h p q IT)) as (s1 & E1 & I1). unfold join_entry. cbn [fst snd]. rewrite E1.
    apply (IH (done ++ [((g, h), (p, q))])); [rewrite <- app_assoc; exact E|rewrite map_app; exact I1|]. unfold join_two in E1. rewrite NEW in E1. destruct (update_neighbours _ _ _ _ _ _ _ _ _ _) as [m|]; [|discriminate]. injection E1 as <-. cbn. rewrite ES, map_app. reflexivity. }
  destruct (G [] table nothing eq_refl (Inv_start rnd position psf registry cnt all) eq_refl) as (s & E & I & ES). exists s. split; [apply ST; exact E|]. split; [exact ES|]. split.
  - intros f. pose proof (i_faces _ _ _ _ _ _ _ _ I f) as F.
    assert (EQ : forall e, (exists p q, edge_between (edges s) e p q /\ joins (pon psf registry cnt) (pmiddle rnd position all) f p q) <-> exists g h x, nth_error table e = Some ((g, h), x) /\ (f = g \/ f = h)).
    { intros e. rewrite ES. unfold edge_between. rewrite nth_error_map. split.
      - intros (p & q & X & J). destruct (nth_error table e) as [[[g h] [p' q']]|] eqn:N; cbn [option_map snd] in X; [|destruct X; discriminate]. exists g, h, (p', q'). split; [reflexivity|]. apply nth_error_In in N. destruct (TW g h p' q' N) as (_ & SH & _). apply SH. destruct J as (J1 & J2 & _). destruct X as [[= -> ->]|[= -> ->]]; auto.
      - intros (g & h & [p q] & N & X). exists p, q. rewrite N. cbn. split; [auto|]. apply nth_error_In in N. destruct (TW g h p q N) as (_ & SH & _). apply SH in X. split; [apply X|]. split; [apply X|reflexivity]. }
    destruct (lookup (iface s) f) as [l|]; [destruct F as (F1 & F2 & F3); split; [exact F1|]; split; [exact F2|]; intros e; rewrite F3; apply EQ|]. intros e X. apply (F e), EQ, X.
  - intros v. rewrite (i_incoming _ _ _ _ _ _ _ _ I v), ES, map_length. reflexivity.
Qed.
End Simple.
