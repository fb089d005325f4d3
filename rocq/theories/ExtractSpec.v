(** Specification of the splitting of the traced polygons into connected components.
    [inm]: the intersection mesh; [vss]: the vertices of the polygons, one list for each polygon. *)
From Coq Require Import List ZArith Relations Sorted.
From Verif Require Import Vec HmeshModel HmeshSpec CompSpec InputSpec ExtractModel.
Import ListNotations.
Open Scope Z_scope.

(** Two vertices are in the same component: a path along edges of the mesh and of the
    polygons. *)
Definition joined (inm : hmesh) (vss : list (list Z)) : Z -> Z -> Prop :=
  clos_refl_sym_trans Z (fun a b => adjacent inm a b \/ exists p, In p vss /\ In (a, b) (directed_edges p)).
(** Two polygons are in the same component. *)
Definition together (inm : hmesh) (vss : list (list Z)) (i j : Z) : Prop :=
  exists p q a b, vget vss i = Some p /\ vget vss j = Some q /\ In a p /\ In b q /\ joined inm vss a b.

(** The location of the component of polygon [i]: [touches l i] = some polygon of the component is in
    list [l]. *)
Definition touches (inm : hmesh) (vss : list (list Z)) (l : list Z) (i : Z) : Prop :=
  exists j, together inm vss i j /\ In j l.
Definition has_location (P : params) (inm : hmesh) (vss : list (list Z)) (i : Z) (l : option location) : Prop :=
  let b := touches inm vss (below_list P) i in
  let a := touches inm vss (above_list P) i in
  match l with
  | None => ~ a /\ ~ b
  | Some Above => a /\ ~ b
  | Some Below => b /\ ~ a
  | Some Undefined => a /\ b
  end.
(** The caller wants the component of polygon [i]. *)
Definition wanted (P : params) (inm : hmesh) (vss : list (list Z)) (i : Z) : Prop :=
  exists l, has_location P inm vss i l /\
    match l with
    | None => True
    | Some Above => keep_above P = true
    | Some Below => keep_below P = true
    | Some Undefined => keep_partial P = true
    end.

(** Vertex [v] of the intersection mesh stems from number [r] of the input (source-mesh vertices
    first, then those of the cut-mesh), or from no input vertex ([null]).  Three tables in
    a row: to "m0", to the polygon soup, to the input mesh. *)
Definition m0_vertex (P : params) (v m0 : Z) : Prop :=
  (v < zlen (m1_to_m0_sm P) /\ vget (m1_to_m0_sm P) v = Some m0 /\ m0 <> null) \/
  (zlen (m1_to_m0_sm P) <= v /\ lookup (m1_to_m0_cm P) v = Some m0 /\ m0 <> null) \/
  (* no entry: the vertex is one of "m0" *)
  (m0 = v /\ (v < zlen (m1_to_m0_sm P) /\ vget (m1_to_m0_sm P) v = Some null \/
              zlen (m1_to_m0_sm P) <= v /\ (lookup (m1_to_m0_cm P) v = None \/ lookup (m1_to_m0_cm P) v = Some null))).
Definition vertex_origin (P : params) (v r : Z) : Prop :=
  exists m0, 0 <= m0 /\ m0_vertex P v m0 /\
   ((zlen (m0_to_ps_vtx P) <= m0 /\ r = null) \/
    exists ps, vget (m0_to_ps_vtx P) m0 = Some ps /\
      ((ps < sm_vtx_cnt P /\ vget (ps_to_sm_vtx P) ps = Some r) \/
       (sm_vtx_cnt P <= ps /\ exists x, vget (ps_to_cm_vtx P) ps = Some x /\ r = sm_vtx_cnt P + x))).
Definition face_origin (P : params) (i r : Z) : Prop :=
  exists m0 ps,
    ((m1_to_m0_face P = [] /\ m0 = base_offset P + i) \/ (m1_to_m0_face P <> [] /\ lookup (m1_to_m0_face P) (base_offset P + i) = Some m0)) /\
    lookup (m0_to_ps_face P) m0 = Some ps /\
    ((ps < sm_face_count P /\ vget (ps_to_sm_face P) ps = Some r) \/
     (sm_face_count P <= ps /\ exists x, vget (ps_to_cm_face P) ps = Some x /\ r = sm_face_count P + x)).

(** What the function needs of its arguments: a well-formed mesh without faces, without removed vertices and without parallel edges; polygons
    made of half-edges of the mesh, which can be faces of one mesh; sorted lists, of which each component has a polygon unless one of them is empty (C82); complete maps (where asked for). *)
Record proper (P : params) (inm : hmesh) (polys vss : list (list Z)) : Prop := {
  pr_hist : history inm; pr_rv : rv inm = []; pr_faces : faces inm = []; pr_rf : rf inm = [];
  pr_simple : forall h h' a b, live_halfedge inm h -> live_halfedge inm h' -> source inm h = Some a -> target inm h = Some b ->
                source inm h' = Some a -> target inm h' = Some b -> h = h';
  pr_live : forall p h, In p polys -> In h p -> live_halfedge inm h;
  pr_vss : map (omap (target inm)) polys = map Some vss;
  pr_wf : well_formed (number_of_vertices inm) vss;
  pr_below : StronglySorted Z.le (below_list P); pr_above : StronglySorted Z.le (above_list P);
  pr_located : below_list P <> [] -> above_list P <> [] -> forall i, 0 <= i < zlen vss -> touches inm vss (below_list P) i \/ touches inm vss (above_list P) i;
  pr_vmap : want_vmaps P = true -> forall p v, In p vss -> In v p -> exists r, vertex_origin P v r;
  pr_fmap : want_fmaps P = true -> forall i, 0 <= i < zlen vss -> exists r, face_origin P i r }.

(** [l'] is [l] read from another starting point. *)
Definition cyclic_shift {A} (l l' : list A) : Prop := exists a b, l = a ++ b /\ l' = b ++ a.

(** The saved component [e] consists of the polygons [forig] (face [f] of the mesh is polygon
    [forig[f]]) and their vertices [vorig]. *)
Record component_of (P : params) (inm : hmesh) (vss : list (list Z)) (e : hmesh * info) (vorig forig : list Z) : Prop := {
  co_hist : history (fst e);
  co_mesh : exists pts gs, mirrors pts gs (fst e) /\ zlen pts = zlen vorig /\ zlen gs = zlen forig /\
    (forall x v, vget vorig x = Some v -> vget pts x = option_map vpt (vget (verts inm) v)) /\
    (forall f i g p, vget gs f = Some g -> vget forig f = Some i -> vget vss i = Some p ->
       exists p', cyclic_shift p p' /\ Forall2 (fun x v => vget vorig x = Some v) g p');
  co_vnd : NoDup vorig; co_fnd : NoDup forig; co_ne : forig <> [];
  co_frange : forall i, In i forig -> 0 <= i < zlen vss;
  co_whole : forall i j, In i forig -> (In j forig <-> together inm vss i j);
  co_verts : forall v, In v vorig <-> exists i p, In i forig /\ vget vss i = Some p /\ In v p;
  (* locations are only known if there are polygons on both sides *)
  co_location : (below_list P = [] \/ above_list P = [] -> i_location (snd e) = Undefined) /\
    (below_list P <> [] -> above_list P <> [] -> forall i, In i forig -> has_location P inm vss i (Some (i_location (snd e))));
  co_seam : NoDup (i_seam (snd e)) /\ forall x, In x (i_seam (snd e)) <-> exists v, vget vorig x = Some v /\ vget (seam_flags P) v = Some true;
  co_vmap : if want_vmaps P then zlen (i_vmap (snd e)) = zlen vorig /\
              forall x v, vget vorig x = Some v -> exists r, vget (i_vmap (snd e)) x = Some r /\ vertex_origin P v r
            else i_vmap (snd e) = [];
  co_fmap : if want_fmaps P then zlen (i_fmap (snd e)) = zlen forig /\
              forall f i, vget forig f = Some i -> exists r, vget (i_fmap (snd e)) f = Some r /\ face_origin P i r
            else i_fmap (snd e) = [] }.

(** The saved components hold the wanted polygons, each exactly once. *)
Definition partitions (P : params) (inm : hmesh) (vss : list (list Z)) (out : list (hmesh * info)) : Prop :=
  exists origins : list (list Z * list Z),
    Forall2 (fun e o => component_of P inm vss e (fst o) (snd o)) out origins /\
    NoDup (concat (map snd origins)) /\
    forall i, In i (concat (map snd origins)) <-> 0 <= i < zlen vss /\ wanted P inm vss i.
