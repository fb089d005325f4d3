(** Property theorems C01-C06 (broad phase). *)
From Coq Require Import List ZArith Lia Permutation.
From Flocq Require Import BinarySingleNaN.
From Verif Require Import Vec VecLemmas BvhModel BvhFloat BvhSpec BvhTraverse BvhBoxes BvhMorton BvhLimits.
Import ListNotations.
Open Scope Z_scope.

(** C01.  For any two meshes of 1..2^23 faces with proper face boxes, for any leaf order the
    sort may produce and any order in which workers fill the node array: the build and
    the traversal perform no out-of-range access, the traversal terminates, and its result
    is exactly the set of overlapping pairs. *)
Theorem C01_broad_phase_exact :
  forall sbx cbx sord cord slsched clsched ssched csched,
  1 <= zlen sbx <= 2 ^ 23 -> 1 <= zlen cbx <= 2 ^ 23 ->
  (forall b, In b sbx -> proper_box b) -> (forall b, In b cbx -> proper_box b) ->
  any_order sord (zlen sbx) -> any_order cord (zlen cbx) ->
  any_order slsched (zlen sbx) -> any_order clsched (zlen cbx) ->
  (forall l, any_order (ssched l) (nodes_on_level (zlen sbx) l)) ->
  (forall l, any_order (csched l) (nodes_on_level (zlen cbx) l)) ->
  exists sm cm,
    build_oibvh sbx sord slsched ssched = Some sm /\
    build_oibvh cbx cord clsched csched = Some cm /\
    (exists fuel m, intersectOIBVHs fuel sm sord cm cord = Some (true, m)) /\
    (forall fuel, intersectOIBVHs fuel sm sord cm cord <> None) /\
    (forall fuel m, intersectOIBVHs fuel sm sord cm cord = Some (true, m) -> exact_candidates sbx cbx m).
Proof. exact broad_phase_exact. Qed.
Print Assumptions C01_broad_phase_exact.

(** C01, face boxes: on the first build the box of a face is the hull of its vertices. *)
Theorem C01_face_boxes_are_hulls :
  forall faces,
  (forall pts, In pts faces -> pts <> [] /\ forall p, In p pts -> finite_pt p) ->
  zlen (face_boxes 0 [] faces) = zlen faces /\
  forall i pts, vget faces i = Some pts ->
    exists b, vget (face_boxes 0 [] faces) i = Some b /\ proper_box b /\ hull_of_points b pts.
Proof. exact face_boxes_hulls. Qed.
Print Assumptions C01_face_boxes_are_hulls.

(** C01, rebuild after polygon partitioning: the box array is not cleared
    (preproc.cpp:2039-2066), so the stored box may be larger than the hull, never smaller. *)
Theorem C01_rebuilt_boxes_conservative :
  forall pts eps old,
  0 <= eps -> pts <> [] -> (forall p, In p pts -> finite_pt p) ->
  contains (face_box eps old pts) (face_box eps default_box pts).
Proof. exact rebuilt_box_conservative. Qed.
Print Assumptions C01_rebuilt_boxes_conservative.

(** C02.  The slots of the real nodes are a bijection onto the array. *)
Theorem C02_node_slots_bijection :
  forall t h, 1 <= t <= 2 ^ 23 -> is_height t h ->
  (forall l j, real_node t h l j -> 0 <= node_slot t l j < get_ostensibly_implicit_bvh_size t) /\
  (forall l j l' j', real_node t h l j -> real_node t h l' j' ->
     node_slot t l j = node_slot t l' j' -> l = l' /\ j = j') /\
  (forall s, 0 <= s < get_ostensibly_implicit_bvh_size t ->
     exists l j, real_node t h l j /\ node_slot t l j = s).
Proof. exact node_slots_bijection. Qed.
Print Assumptions C02_node_slots_bijection.

(** C03.  Every stored box is the smallest box containing the boxes of the faces below. *)
Theorem C03_inner_boxes_are_hulls :
  forall fb ord leafsched sched h,
  1 <= zlen fb <= 2 ^ 23 -> is_height (zlen fb) h ->
  (forall b, In b fb -> proper_box b) -> any_order ord (zlen fb) ->
  any_order leafsched (zlen fb) -> (forall l, any_order (sched l) (nodes_on_level (zlen fb) l)) ->
  exists mem, build_oibvh fb ord leafsched sched = Some mem /\
    zlen mem = get_ostensibly_implicit_bvh_size (zlen fb) /\
    forall l j, real_node (zlen fb) h l j ->
      exists b, vget mem (node_slot (zlen fb) l j) = Some b /\
        forall below, (forall x, In x below <->
             exists k f, leaf_below (zlen fb) h l j k /\ vget ord k = Some f /\ vget fb f = Some x) ->
          smallest_box b below.
Proof. exact tree_boxes_smallest. Qed.
Print Assumptions C03_inner_boxes_are_hulls.

(** C04.  Single-precision ancestors are exact while the node index is below 2^24. *)
Theorem C04_float_ancestor_exact :
  forall i d, 0 <= d <= 100 -> 2 ^ d <= i + 1 <= 2 ^ 24 -> f32_ancestor i d = (i + 1) / 2 ^ d - 1.
Proof. exact f32_ancestor_exact. Qed.
Print Assumptions C04_float_ancestor_exact.

(** C04, above the bound: already the "ancestor at distance 0" of a node is another node. *)
Theorem C04_above_bound_refuted :
  exists i, i + 1 = 2 ^ 24 + 1 /\ f32_ancestor i 0 <> (i + 1) / 2 ^ 0 - 1.
Proof. exists (2 ^ 24). split; [reflexivity | vm_compute; discriminate]. Qed.
Print Assumptions C04_above_bound_refuted.

(** C02/C04, above the bound: for a mesh of 2^23+4 faces, whatever their boxes, building
    the hierarchy writes a leaf outside the node array (undefined behaviour). *)
Theorem C02_build_out_of_bounds_refuted :
  forall fb ord leafsched sched,
  zlen fb = 2 ^ 23 + 4 -> any_order leafsched (zlen fb) ->
  build_oibvh fb ord leafsched sched = None.
Proof. exact build_overflow. Qed.
Print Assumptions C02_build_out_of_bounds_refuted.

(** C05.  Morton codes: total on every float, 30 bits, interleaving of quantised coordinates. *)
Theorem C05_morton_interleaves :
  forall x y z : b32,
  exists qx qy qz code,
    morton3D x y z = Some code /\
    quantised x qx /\ quantised y qy /\ quantised z qz /\
    0 <= qx < 1024 /\ 0 <= qy < 1024 /\ 0 <= qz < 1024 /\ interleaves qx qy qz code.
Proof. exact morton3D_spec. Qed.
Print Assumptions C05_morton_interleaves.

Theorem C05_morton_injective :
  forall (x y z x' y' z' : b32) code,
  morton3D x y z = Some code -> morton3D x' y' z' = Some code ->
  exists qx qy qz, quantised x qx /\ quantised x' qx /\ quantised y qy /\ quantised y' qy /\
                   quantised z qz /\ quantised z' qz.
Proof. exact morton3D_inj. Qed.
Print Assumptions C05_morton_injective.

(** C06.  The list computed from boxes enlarged by [eps] keeps every pair that overlaps
    after translating the cut mesh (with rounded double additions) by any vector bounded
    by [eps]. *)
Theorem C06_perturbation_conservative :
  forall sboxes cfaces eps d m f g bf pts,
  0 < eps -> bounded_by eps d ->
  vget sboxes f = Some bf -> vget cfaces g = Some pts ->
  pts <> [] -> (forall p, In p pts -> finite_pt p) ->
  (forall p, In p pts -> finite_pt (perturb_pt d p)) ->
  exact_candidates sboxes (face_boxes eps [] cfaces) m ->
  boxes_overlap bf (face_box 0 default_box (map (perturb_pt d) pts)) ->
  In (g + zlen sboxes) (m f) /\ In f (m (g + zlen sboxes)).
Proof. exact perturbation_conservative. Qed.
Print Assumptions C06_perturbation_conservative.

(** * Non-vacuity *)

Definition cube a b := Box (V3 a a a) (V3 b b b).
Definition ex_boxes := [cube 0 1; cube 3 5; cube 10 11; cube 4 6; cube 20 30].
Definition ex_order := [0; 1; 3; 2; 4].

Example ex_premises :
  1 <= zlen ex_boxes <= 2 ^ 23 /\ any_order ex_order (zlen ex_boxes) /\
  any_order [4; 3; 2; 1; 0] (zlen ex_boxes) /\ is_height (zlen ex_boxes) 3.
Proof.
  split; [vm_compute; split; discriminate|]. split; [|split].
  - unfold any_order. change (zrange (zlen ex_boxes)) with [0; 1; 2; 3; 4]. unfold ex_order.
    do 2 constructor. apply perm_swap.
  - unfold any_order. change (zrange (zlen ex_boxes)) with (rev [4; 3; 2; 1; 0]). apply Permutation_rev.
  - split; [vm_compute; discriminate|]. split; [vm_compute; discriminate|].
    intros h' H0 H1. change (zlen ex_boxes) with 5 in H1.
    destruct (Z_lt_le_dec h' 3) as [L|L]; [|exact L].
    assert (h' = 0 \/ h' = 1 \/ h' = 2) as [-> | [-> | ->]] by lia; cbn in H1; lia.
Qed.

Example ex_run :
  match build_oibvh ex_boxes ex_order [4; 3; 2; 1; 0] (fun l => rev (zrange (nodes_on_level 5 l))) with
  | Some mem =>
      match intersectOIBVHs 1000 mem ex_order mem ex_order with
      | Some (true, m) => map m (zrange 10) = [[5]; [6; 8]; [7]; [6; 8]; [9]; [0]; [1; 3]; [2]; [1; 3]; [4]]
      | _ => False
      end
  | None => False
  end.
Proof. vm_compute. reflexivity. Qed.

Example ex_proper : forall b, In b ex_boxes -> proper_box b.
Proof.
  intros b H. repeat (destruct H as [<- | H]; [vm_compute; repeat split; discriminate|]). destruct H.
Qed.

Example ex_real : real_node 5 3 1 1 /\ ~ real_node 5 3 3 5.
Proof.
  split.
  - split; [lia|]. exists 4. split; [lia | reflexivity].
  - intros [_ (k & Hk & E)]. change (2 ^ (3 - 3)) with 1 in E. rewrite Z.div_1_r in E. lia.
Qed.

Example ex_morton : morton3D (f32_of_int 1) (f32_div (f32_of_int 1) (f32_of_int 2)) B754_nan
  = Some (Z.lor (4 * expandBits 1023) (2 * expandBits 512)).
Proof. vm_compute. reflexivity. Qed.

(** C06: a face that only touches the source box after the perturbation. *)
Example ex_perturb :
  let pts := [V3 10 0 0; V3 12 0 0; V3 12 3 0] in
  bounded_by 4 (V3 (-4) 1 0) /\
  ~ boxes_overlap (cube 0 7) (face_box 0 default_box pts) /\
  boxes_overlap (cube 0 7) (face_box 0 default_box (map (perturb_pt (V3 (-4) 1 0)) pts)).
Proof.
  cbv zeta. split; [vm_compute; repeat split; discriminate|]. split.
  - intros (p & [Hx _] & [Hx' _]).
    assert (E : vx (bmin (face_box 0 default_box [V3 10 0 0; V3 12 0 0; V3 12 3 0])) = 10) by (vm_compute; reflexivity).
    rewrite E in Hx'. clear E. unfold cube in Hx. cbn [vx bmax bmin] in Hx. lia.
  - exists (V3 6 1 0). vm_compute. repeat split; discriminate.
Qed.
