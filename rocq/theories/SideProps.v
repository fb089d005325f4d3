(** Property theorems C82 (the side of the cut mesh on which a fragment lies). *)
From Coq Require Import List Arith ZArith Bool Reals Lia Lra Permutation Sorted.
From Verif Require Import CutModel ClipModel SplitModel PatchModel TriModel PatchSpec PatchProofs SideModel SideSpec SideProofs.
From Verif Require Import Vec VecLemmas HmeshModel ExtractModel ExtractSpec ExtractProofs ExtractProps.
Import ListNotations.
Open Scope nat_scope.

Section Theorems.
Variable polygons : list (list nat).
Variable sm_count : nat.
Variable cutpath_halfedges : nat.
Variable seg : nat -> nat * nat.
Variable registry : list (nat * nat).
Variable cnt : nat.
Variables (sm_vtx_cnt sm_face_count : nat).
Variable pvertex0 : nat -> nat.
Variable psf : nat -> option nat * option nat.
Variable normal : nat -> vec.
Variable position : nat -> vec.
Variable adjacent : list nat.
Notation cut := (fun h => h < cutpath_halfedges).
Notation arrives := (arrives polygons cut (ClipModel.src seg) (ClipModel.tgt seg) position cnt registry normal).
Notation goes_on := (goes_on polygons).
Notation above := (above polygons cut (ClipModel.src seg) (ClipModel.tgt seg) position cnt registry normal adjacent).
Notation behind := (behind polygons sm_count ClipModel.opp cut (ClipModel.src seg) (ClipModel.tgt seg) position cnt registry normal adjacent).
Notation below := (below polygons sm_count ClipModel.opp cut (ClipModel.src seg) (ClipModel.tgt seg) position cnt registry normal adjacent).
Notation scene := (scene polygons sm_count ClipModel.opp cut (ClipModel.src seg) (ClipModel.tgt seg) position cnt registry normal adjacent (fun e => pvertex0 e < sm_vtx_cnt) (fun f => sm_face_count <= f)).
Notation one_sided := (one_sided polygons sm_count ClipModel.opp cut (ClipModel.src seg) (ClipModel.tgt seg) position cnt registry normal adjacent).
Notation above_below := (above_below polygons sm_count cutpath_halfedges seg registry cnt sm_vtx_cnt sm_face_count pvertex0 psf normal position (fun x => x)).

(** C82.  In the scene of a cut the two lists are found.  Listed as above are exactly the polygons that come to the cut mesh from the front, each once; only polygons on the other side of the curve there are listed as
    below; there are polygons above exactly if there are polygons below; the lists are sorted.  A polygon on the other side is listed, or else the polygon in front of it is itself listed as below (C82_lost_refuted: then
    it can be missing). *)
Theorem C82_lists : scene -> exists a b, above_below adjacent = Some (a, b) /\ StronglySorted le a /\ StronglySorted le b /\ NoDup a /\
  (forall p, In p a <-> above p) /\ (forall q, In q b -> below q) /\ (forall p q, behind p q -> In q b \/ In p b) /\ (a = [] <-> b = []).
Proof.
  intros SC. destruct (loop_inv _ _ _ _ _ _ _ _ _ psf _ _ _ SC) as ((a & b) & E & [V1 V2 V3 V4 V5]). exists (sort a), (sort b). unfold SideModel.above_below. rewrite E. cbn [bind fst snd] in *.
  assert (DA : forall p i h f, arrives p i h f -> exists h polygon, nth_error polygons p = Some polygon /\ nth_error polygon i = Some h) by (intros p i h f (po & e & A & B & _); eauto).
  split; [reflexivity|]. split; [apply sort_sorted|]. split; [apply sort_sorted|]. split; [eapply Permutation_NoDup; [apply Permutation_sym, sort_perm|exact V1]|]. split; [|split; [|split]].
  - intros p. rewrite In_sort, V2. unfold SideSpec.above. split; [intros (i & h & f & [X _] & Y); eauto|intros (X & i & h & f & Y); exists i, h, f; split; [split; [exact X|eauto]|exact Y]].
  - intros q I. rewrite In_sort in I. destruct (V3 q I) as (p & i & h & f & g & [X _] & A & G & L & S). exists p. split; [exact X|]. exists i, h, f, g. auto.
  - intros p q (X & i & h & f & g & A & G & L & S). rewrite !In_sort. eapply V4; try eassumption. split; [exact X|eauto].
  - rewrite !sort_nil. split; intros ->; [destruct b as [|q b]; [reflexivity|]|destruct a as [|p a]; [reflexivity|exfalso; apply V5; [discriminate|reflexivity]]].
    destruct (V3 q (or_introl eq_refl)) as (p & i & h & f & g & X & A & _). destruct (proj2 (V2 p)). eauto.
Qed.

(** C82.  If no polygon lies between two sheets of the cut mesh that face the same way, both lists are exact. *)
Theorem C82_exact_partial : scene -> one_sided -> exists a b, above_below adjacent = Some (a, b) /\ (forall p, In p a <-> above p) /\ (forall q, In q b <-> below q).
Proof.
  intros SC OS. destruct (C82_lists SC) as (a & b & E & _ & _ & _ & A & S & C & _). exists a, b. split; [exact E|]. split; [exact A|]. intros q. split; [apply S|]. intros (p & B). destruct (C p q B) as [I|I]; [exact I|].
  exfalso. apply (OS p); [|apply S, I]. destruct B as (X & i & h & f & g & Y & _). split; [exact X|eauto].
Qed.

(** The polygon on the other side is at the back of the cut mesh: p arrives at a point of the face f along h and goes on with g.  If the polygon q, having come along the same piece of the curve in the other direction, leaves that
    point with the side k, straight on from h, then k leads to the back of f. *)
Theorem C82_other_side p q i h f g j k t : arrives p i h f -> goes_on p i g ->
  (exists polygon, nth_error polygons q = Some polygon /\ nth_error polygon j = Some (ClipModel.opp g)) -> goes_on q j k -> ClipModel.src seg k = ClipModel.tgt seg h ->
  (0 < t)%R -> difference (position (ClipModel.tgt seg k)) (position (ClipModel.src seg k)) =
    (let '(x, y, z) := difference (position (ClipModel.tgt seg h)) (position (ClipModel.src seg h)) in (t * x, t * y, t * z)%R) ->
  at_back normal f (position (ClipModel.tgt seg k)) (position (ClipModel.src seg k)).
Proof.
  intros (po & e & _ & _ & _ & _ & F) _ _ _ K T E. unfold at_back. rewrite E. unfold in_front in F. destruct (normal f) as [[n1 n2] n3]. destruct (position (ClipModel.tgt seg h)) as [[a1 a2] a3], (position (ClipModel.src seg h)) as [[b1 b2] b3]. cbn in *.
  assert (X : (0 < t * (n1 * (b1 - a1) + n2 * (b2 - a2) + n3 * (b3 - a3)))%R) by (apply Rmult_lt_0_compat; assumption). lra.
Qed.

Lemma sorted_Z l : StronglySorted le l -> StronglySorted Z.le (map Z.of_nat l).
Proof. induction 1 as [|x l S IH F]; cbn; constructor; [exact IH|]. rewrite Forall_map. eapply Forall_impl; [|exact F]. cbn. intros; lia. Qed.

Lemma proper_lists P inm polys vss b a : proper (with_lists P [] []) inm polys vss -> StronglySorted le b -> StronglySorted le a ->
  (forall i, (0 <= i < zlen vss)%Z -> touches inm vss (map Z.of_nat b) i \/ touches inm vss (map Z.of_nat a) i) -> proper (with_lists P b a) inm polys vss.
Proof. intros [H1 H2 H3 H4 H5 H6 H7 H8 H9 H10 H11 H12 H13] SB SA T. constructor; try assumption; [apply sorted_Z, SB|apply sorted_Z, SA|]. intros _ _ i Hi. apply T, Hi. Qed.

Lemma touches_has inm vss l Q i : (forall p, In p l <-> Q p) -> touches inm vss (map Z.of_nat l) i <-> has inm vss Q i.
Proof.
  intros X. unfold touches, has. split.
  - intros (j & T & I). apply in_map_iff in I. destruct I as (n & <- & I). exists n. split; [exact T|apply X, I].
  - intros (n & T & I). exists (Z.of_nat n). split; [exact T|]. apply in_map, X, I.
Qed.

(** C82.  From the scene to what is reported: if moreover each fragment has a polygon above or below, then every component that is returned has the location of its polygons: above the cut mesh if it comes to the cut mesh from the front
    and nowhere lies behind it, below in the opposite case, undefined if both. *)
Theorem C82_reported_partial P inm polys vss pool : scene -> one_sided -> (exists p, above p) ->
  proper (with_lists P [] []) inm polys vss -> schedulable pool (zlen vss) -> (forall i, (0 <= i < zlen vss)%Z -> has inm vss above i \/ has inm vss below i) ->
  exists a b, above_below adjacent = Some (a, b) /\ exists bound, forall fuel, bound <= fuel -> exists out origins,
    extract fuel pool (with_lists P b a) (fun _ => None) inm polys = Some out /\
    Forall2 (fun e o => component_of (with_lists P b a) inm vss (snd e) (fst o) (snd o) /\ forall i, In i (snd o) -> right_location inm vss above below i (i_location (snd (snd e)))) out origins /\
    NoDup (concat (map snd origins)) /\ forall i, In i (concat (map snd origins)) <-> (0 <= i < zlen vss)%Z /\ wanted (with_lists P b a) inm vss i.
Proof.
  intros SC OS (p0 & A0) PR SCH CV. destruct (C82_lists SC) as (a & b & E & SA & SB & _ & A & _ & _ & N). destruct (C82_exact_partial SC OS) as (a' & b' & E' & _ & B). assert (b' = b) by congruence. subst b'.
  exists a, b. split; [exact E|]. assert (PR' : proper (with_lists P b a) inm polys vss).
  { apply proper_lists; try assumption. intros i Hi. rewrite (touches_has inm vss b below i B), (touches_has inm vss a above i A). destruct (CV i Hi); auto. }
  destruct (C20_components_partition_polygons _ inm polys vss pool PR' SCH) as (bound & H). exists bound. intros fuel L. destruct (H fuel L) as (out & EX & origins & F & ND & W). exists out, origins. split; [exact EX|]. split; [|split; assumption].
  assert (NA : a <> []) by (intros ->; apply (proj2 (A p0)) in A0; destruct A0). assert (NB : b <> []) by (intros ->; apply NA, N; reflexivity).
  clear - F A B NA NB. remember (map snd out) as l eqn:EL. revert out EL. induction F as [|e o l os C F IH]; intros out EL; destruct out as [|x out]; try discriminate; [constructor|]. injection EL as -> EL. constructor; [|apply IH, EL].
  split; [exact C|]. intros i Hi. pose proof (co_location _ _ _ _ _ _ C) as [_ LO]. specialize (LO ltac:(destruct b; [congruence|discriminate]) ltac:(destruct a; [congruence|discriminate]) i Hi). unfold has_location in LO. cbn [below_list above_list with_lists] in LO.
  unfold right_location. destruct (i_location (snd (snd x))); rewrite !(touches_has inm vss b below i B), !(touches_has inm vss a above i A) in LO; exact LO.
Qed.
End Theorems.
