(** Specification of dispatch filters, perturbation and candidate lists (C21-C23, C50). *)
From Coq Require Import List ZArith Bool.
From Verif Require Import Vec BvhModel BvhSpec DispatchModel.
Import ListNotations.
Open Scope Z_scope.

(** ** Filters: the bits of the dispatch flags, as documented in mcut.h *)
Definition bit (flags k : Z) : bool := Z.testbit flags k.

(** bits 5..14 are the filters *)
Definition any_filter (flags : Z) : bool := existsb (bit flags) [5; 6; 7; 8; 9; 10; 11; 12; 13; 14].
Definition all_filters : Z := fold_right Z.add 0 (map (fun k => 2 ^ k) [5; 6; 7; 8; 9; 10; 11; 12; 13; 14]).

Definition location_bit (l : floc) : Z := match l with Above => 5 | Below => 6 | Undef => 7 end.

(** The components a set of flags names: a fragment by its location and by how it is sealed, a
    patch by its location, a seam by its mesh.  The copies of the input meshes are always there. *)
Definition named (flags : Z) (c : comp) : bool :=
  match c with
  | Sealed _ l Inside => bit flags (location_bit l) && bit flags 8
  | Sealed _ l Outside => bit flags (location_bit l) && bit flags 9
  | Unsealed _ l => bit flags (location_bit l) && bit flags 10
  | Patch _ Inside => bit flags 11
  | Patch _ Outside => bit flags 12
  | SeamSrc => bit flags 13
  | SeamCut => bit flags 14
  | InputCut | InputSrc => true
  end.
Definition wanted (flags : Z) (c : comp) : bool := negb (any_filter flags) || named flags c.

(** the same call with other flags *)
Definition with_flags (e : env) (flags : Z) : env :=
  Env flags (e_attempts e) (e_src e) (e_cut e) (e_cut_valid e) (e_const e) (e_draw e) (e_check e) (e_pairs e)
      (e_kernel e) (e_split_src e) (e_split_cut e).

(** ** Perturbation *)
Definition perturbations (tr : list event) : list vec3 :=
  flat_map (fun ev => match ev with ELoad (Some p) => [p] | _ => [] end) tr.
Definition kernel_runs (tr : list event) : list (kin * kstatus) :=
  flat_map (fun ev => match ev with EKernel k s => [(k, s)] | _ => [] end) tr.
Definition partitionings (tr : list event) : list (bool * bool) :=
  flat_map (fun ev => match ev with ESplit a b => [(a, b)] | _ => [] end) tr.

(** every vertex of a mesh translated with double additions *)
Definition translated (p : vec3) (s : surface) : surface := map (map (perturb_pt p)) s.

(** [cut_is e tr l c]: after the events [tr] the cut mesh is [c]; it was last read from the
    user's arrays with the translation [l], and after that only polygons were partitioned. *)
Inductive cut_is (e : env) : list event -> option vec3 -> surface -> Prop :=
| ci_plain tr : cut_is e (tr ++ [ELoad None]) None (e_cut e)
| ci_moved tr p : cut_is e (tr ++ [ELoad (Some p)]) (Some p) (translated p (e_cut e))
| ci_kernel tr l c k s : cut_is e tr l c -> cut_is e (tr ++ [EKernel k s]) l c
| ci_src_split tr l c b : cut_is e tr l c -> cut_is e (tr ++ [ESplit b false]) l c
| ci_cut_split tr l c b c' n src :
    cut_is e tr l c -> e_split_cut e n src c = Some c' -> cut_is e (tr ++ [ESplit b true]) l c'.

(** the bounding boxes of some faces of the two user meshes overlap, so that the kernel is invoked *)
Definition some_candidates (e : env) : Prop :=
  let sb := face_boxes 0 [] (e_src e) in let cb := face_boxes (e_const e (e_cut e)) [] (e_cut e) in
  exists i x, 0 <= i < zlen sb + zlen cb /\ In x (e_pairs e sb cb i).

(** ** Candidate lists *)
(** one box per face, containing the vertices of the face *)
Definition boxes_fit (bs : list box) (s : surface) : Prop :=
  zlen bs = zlen s /\
  forall i pts, vget s i = Some pts -> exists b, vget bs i = Some b /\ forall q, In q pts -> in_box q b.

(** The input of a kernel run is consistent: boxes and candidates are about the faces of the
    meshes of that run, and faces with overlapping hulls are candidates of each other. *)
Definition consistent_input (k : kin) : Prop :=
  boxes_fit (i_sboxes k) (i_src k) /\ boxes_fit (i_cboxes k) (i_cut k) /\
  exact_candidates (i_sboxes k) (i_cboxes k) (i_pairs k) /\
  forall f g pf pg bf bg,
    vget (i_src k) f = Some pf -> vget (i_cut k) g = Some pg ->
    hull_of_points bf pf -> hull_of_points bg pg -> boxes_overlap bf bg ->
    In (g + zlen (i_src k)) (i_pairs k f) /\ In f (i_pairs k (g + zlen (i_src k))).

(** no reading of the user's cut mesh after one of its polygons has been partitioned *)
Definition no_reload_after_cut_split (tr : list event) : Prop :=
  forall tr1 tr2 b l, tr = tr1 ++ tr2 -> In (ESplit b true) tr1 -> ~ In (ELoad l) tr2.

(** a mesh the kernel can work on: 1..2^23 faces with vertices that are finite doubles *)
Definition is_double (x : Z) : Prop := fl64 x = x.
Definition double_pt (p : vec3) : Prop := is_double (vx p) /\ is_double (vy p) /\ is_double (vz p).
Definition good_surface (s : surface) : Prop :=
  1 <= zlen s <= 2 ^ 23 /\ forall pts, In pts s -> pts <> [] /\ forall p, In p pts -> double_pt p /\ finite_pt p.

Definition finite_boxes (bs : list box) : Prop := forall b, In b bs -> finite_pt (bmin b) /\ finite_pt (bmax b).

(** The broad phase used by the driver is the code of C01: hierarchies built in some leaf order and by
    some schedule, traversed to the end. *)
Definition broad_phase_is_code (e : env) : Prop :=
  forall sb cb,
  1 <= zlen sb <= 2 ^ 23 -> 1 <= zlen cb <= 2 ^ 23 ->
  (forall b, In b sb -> proper_box b) -> (forall b, In b cb -> proper_box b) ->
  exists sord cord slsched clsched ssched csched sm cm fuel,
    any_order sord (zlen sb) /\ any_order cord (zlen cb) /\
    any_order slsched (zlen sb) /\ any_order clsched (zlen cb) /\
    (forall l, any_order (ssched l) (nodes_on_level (zlen sb) l)) /\
    (forall l, any_order (csched l) (nodes_on_level (zlen cb) l)) /\
    build_oibvh sb sord slsched ssched = Some sm /\ build_oibvh cb cord clsched csched = Some cm /\
    intersectOIBVHs fuel sm sord cm cord = Some (true, e_pairs e sb cb).

(** The parameters of the driver behave: usable meshes, also after partitioning; a random number
    between -1 and 1 times the constant is bounded by the constant; the constant (the size of the cut
    mesh times the user's factor, or the factor itself) does not grow when the cut mesh is translated. *)
Record sane (e : env) : Prop := {
  sa_src : good_surface (e_src e);
  sa_cut : good_surface (e_cut e);
  sa_split_src : forall n s c x, e_split_src e n s c = Some x -> good_surface x;
  sa_split_cut : forall n s c x, e_split_cut e n s c = Some x -> good_surface x;
  sa_draw : forall k c, 0 <= c -> bounded_by c (e_draw e k c);
  sa_const : 0 < e_const e (e_cut e);
  sa_const_moved : forall p, bounded_by (e_const e (e_cut e)) p ->
                     0 <= e_const e (translated p (e_cut e)) <= e_const e (e_cut e);
  sa_pairs : broad_phase_is_code e }.
