(** Specification of polygon partitioning. *)
From Coq Require Import List ZArith Bool Permutation.
From Verif Require Import Vec HmeshModel HmeshSpec InputModel InputSpec DataModel PartModel.
Import ListNotations.
Open Scope Z_scope.

(** The same cyclic sequence, read from another position. *)
Definition same_cycle {A} (a b : list A) : Prop := exists x y, a = x ++ y /\ b = y ++ x.

(** The vertices around face [f], read from some position. *)
Definition around (m : hmesh) (f : Z) (r : list Z) : Prop :=
  live_face m f /\ exists l, get_vertices_around_face m f = Some l /\ same_cycle l r.

(** [r] with [v] put between [a] and [b] wherever [b] follows [a], and [w] between [c] and [d]. *)
Definition subdivide (a b v c d w : Z) (r : list Z) : list Z :=
  concat (map (fun p => if (fst p =? a) && (snd p =? b) then [fst p; v]
                        else if (fst p =? c) && (snd p =? d) then [fst p; w]
                        else [fst p]) (directed_edges r)).

(** A mesh as the conversion of user arrays and earlier partitions leave it: no free slots,
    every face has at least three vertices, all different, no two half-edges go from the same
    vertex to the same vertex, every edge belongs to a face. *)
Record plain (m : hmesh) : Prop := {
  pl_hist : history m;
  pl_rv : rv m = []; pl_rf : rf m = [];
  pl_face : forall f r, around m f r -> NoDup r;
  pl_simple : forall h1 h2 s t, live_halfedge m h1 -> live_halfedge m h2 ->
     source m h1 = Some s -> target m h1 = Some t -> source m h2 = Some s -> target m h2 = Some t -> h1 = h2;
  pl_edges : forall h s t, live_halfedge m h -> source m h = Some s -> target m h = Some t ->
     exists f r, around m f r /\ (In (s, t) (directed_edges r) \/ In (t, s) (directed_edges r)) }.

(** [f] has been cut in two by an edge between the new vertices [v0] and [v1], which lie on
    the edges [s0 -> t0] and [s1 -> t1] of [f]; nothing else has changed, except that [v0]
    and [v1] have also been put on these edges in the faces beyond them. *)
Record cut_in_two (m : hmesh) (f : Z) (p0 p1 : point) (m' : hmesh) (v0 v1 c0 c1 : Z) : Prop := {
  ct_rings : exists s0 t0 s1 t1 A B,
    around m f (A ++ B) /\
    (exists A', A = t0 :: A') /\ (exists A', A = A' ++ [s1]) /\
    (exists B', B = t1 :: B') /\ (exists B', B = B' ++ [s0]) /\
    around m' c0 (v0 :: v1 :: B) /\
    around m' c1 (v1 :: v0 :: A) /\
    (forall g r, g <> f -> around m g r -> around m' g (subdivide t0 s0 v0 t1 s1 v1 r));
  ct_c0 : c0 = f;
  ct_c1 : c1 = number_of_faces m;
  ct_faces : forall g, live_face m' g <-> live_face m g \/ g = c1;
  ct_v0 : v0 = number_of_vertices m;
  ct_v1 : v1 = number_of_vertices m + 1;
  ct_verts : forall v, live_vertex m' v <-> live_vertex m v \/ v = v0 \/ v = v1;
  ct_old_points : forall v, live_vertex m v ->
    option_map vpt (vget (verts m') v) = option_map vpt (vget (verts m) v);
  ct_p0 : option_map vpt (vget (verts m') v0) = Some p0;
  ct_p1 : option_map vpt (vget (verts m') v1) = Some p1 }.

(** The geometric search found two different edges of the face. *)
Definition two_edges (m : hmesh) (f : Z) (g : geom) : Prop :=
  exists hs, get_halfedges_around_face m f = Some hs /\
    0 <= g_i0 g < zlen hs /\ 0 <= g_i1 g < zlen hs /\ g_i0 g <> g_i1 g.

(** ** Runs of the loop around the kernel *)

(** [m] was converted from user arrays that describe [nv] vertices and the faces [fs]. *)
Definition converted (nv : Z) (fs : list (list Z)) (m : hmesh) : Prop :=
  exists coords sizes idx, zlen coords = nv /\ describes sizes idx fs /\
    (forall x, In x (concat fs) -> 0 <= x) /\ zlen (concat fs) < 2 ^ 31 /\
    seq_convert coords sizes idx (zlen fs) = CAccept m.

(** A floating polygon on face [f] that the model can be given: the face exists, the faces cut
    from the same user face are visited once each in some order, and if a face is to be cut, two of
    its edges were found to be crossed. *)
Definition legal_fp (s : imesh) (f : Z) (o : fporacle) : Prop :=
  live_face (im s) f /\
  (forall b, assoc (im_birth s) f = Some b -> Permutation (o_visit o) (children s b)) /\
  (forall f', match assoc (im_birth s) f with
              | None => f' = f
              | Some _ => exists i, o_verdict o = Inside i /\ nth_error (o_visit o) i = Some f' /\ live_face (im s) f'
              end -> two_edges (im s) f' (o_geom o)) /\
  (assoc (im_birth s) f <> None -> match o_verdict o with Crossed i => (i < length (o_visit o))%nat | Inside i => (i < length (o_visit o))%nat end).
Definition legal (d : driver) (x : Z * fporacle) : Prop :=
  if fst x <? d_prev d then legal_fp (d_src d) (fst x) (snd x) else legal_fp (d_cut d) (fst x - d_prev d) (snd x).

(** one floating polygon after the other *)
Inductive legal_all : driver -> list (Z * fporacle) -> Prop :=
| la_nil d : legal_all d []
| la_cons d x l : legal d x -> (forall d', resolve_fp d x = Some d' -> legal_all d' l) -> legal_all d (x :: l).

(** all faces given to the kernel *)
Definition all_faces (d : driver) : Z := number_of_faces (im (d_src d)) + number_of_faces (im (d_cut d)).

(** A turn that the model can be given: after a violation the user's cut mesh is converted again; the
    traversal of hierarchies over the current faces finds only current faces. *)
Definition legal_turn (nvc : Z) (fsc : list (list Z)) (d : driver) (t : turn) : Prop :=
  match t with
  | TViolation m => converted nvc fsc m
  | TFloating l cand => legal_all d l /\
      forall d', resolve_all d l = Some d' -> forall x, In x cand -> 0 <= x < all_faces d'
  end.

(** The states in which the kernel is called, the user's meshes having [nvs] ([nvc]) vertices and the faces [fss] ([fsc]). *)
Inductive reached (nvs : Z) (fss : list (list Z)) (nvc : Z) (fsc : list (list Z)) : driver -> Prop :=
| re_first src cut cand : converted nvs fss src -> converted nvc fsc cut ->
    (forall x, In x cand -> 0 <= x < zlen fss + zlen fsc) -> reached nvs fss nvc fsc (first_turn src cut cand)
| re_turn d t d' : reached nvs fss nvc fsc d -> legal_turn nvc fsc d t -> do_turn d t = Some d' -> reached nvs fss nvc fsc d'.

(** The user's face that each face slot of the source (cut) mesh is a part of, after what happened:
    cutting a face in two keeps its slot for one half and adds a slot for the other. *)
Fixpoint origins (cut : bool) (nf : Z) (l : list happened) (o : list Z) : list Z :=
  match l with
  | [] => o
  | HPart c f _ :: r => origins cut nf r (if eqb c cut then o ++ match vget o f with Some b => [b] | None => [null] end else o)
  | HRebuilt :: r => origins cut nf r (if cut then zrange nf else o)
  end.
Definition face_origin (cut : bool) (nf : Z) (d : driver) : list Z := origins cut nf (d_log d) (zrange nf).

(** What a map entry should say.  Faces: the kernel numbers the faces of the cut mesh after those of the
    source mesh; the user is told source faces as they are and cut faces after them. *)
Definition face_told (nfs nfc : Z) (d : driver) (i : Z) : option Z :=
  vget (face_origin false nfs d ++ map (Z.add nfs) (face_origin true nfc d)) i.
(** Vertices: those of the user, in the same way, and a special value for all others. *)
Definition vertex_told (nvs nvc : Z) (d : driver) (i : Z) : option Z :=
  if i =? UINT32_MAX then Some UINT32_MAX else
  let isv := number_of_vertices (im (d_src d)) in
  let icv := number_of_vertices (im (d_cut d)) in
  if i <? 0 then None
  else if i <? nvs then Some i
  else if i <? isv then Some UINT32_MAX
  else if i <? isv + nvc then Some (nvs + (i - isv))
  else if i <? isv + icv then Some UINT32_MAX
  else None.

(** no violation after a face of the cut mesh was cut *)
Definition no_stale (l : list happened) : Prop :=
  forall a b f p, l = a ++ HPart true f p :: b -> ~ In HRebuilt b.
