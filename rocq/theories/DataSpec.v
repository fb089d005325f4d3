(** Specification side of the data queries: effect on the user's memory, the expected
    contents. *)
From Coq Require Import List ZArith.
From Verif Require Import Vec HmeshModel HmeshSpec ParModel DataModel.
Import ListNotations.
Open Scope Z_scope.

(** The memory behind the user's pointer, in elements. *)
Definition mem := Z -> Z.
Definition store (m : mem) (p : Z * Z) : mem := fun o => if o =? fst p then snd p else m o.
(** after performing the stores in that order *)
Definition run (m : mem) (l : list (Z * Z)) : mem := fold_left store l m.

(** A reply fills the buffer with [content] (elements of [esz] bytes) and touches nothing else,
    whatever the schedule of the threads. *)
Definition fills (r : reply) (esz : Z) (content : list Z) : Prop :=
  exists threads, r = Stores esz threads /\
    forall order m o, interleaving threads order ->
      run m order o = match vget content o with Some x => x | None => m o end.

(** Size and data queries agree: the size query reports the number of bytes of [content] and the
    data query with that many bytes fills the buffer with it. *)
Definition agrees (q : dest -> reply) (esz : Z) (content : list Z) : Prop :=
  q Null = Bytes (esz * zlen content) /\ fills (q (Buffer (esz * zlen content))) esz content.

(** A data query with [bytes] bytes stays inside the buffer or is refused. *)
Definition inside (r : reply) (bytes : Z) : Prop :=
  match r with
  | Throws => True
  | Stores esz threads => forall o v, In (o, v) (concat threads) -> 0 <= o /\ (o + 1) * esz <= bytes
  | _ => False
  end.
(** some element is stored that is not entirely inside the buffer *)
Definition overruns (r : reply) (bytes : Z) : Prop :=
  exists esz threads o v, r = Stores esz threads /\ In (o, v) (concat threads) /\ bytes < (o + 1) * esz.

(** The mesh of a component: the result of mesh construction calls, vertices and faces having no
    removed slots (edges may have some), within the limits of the 32-bit counters. *)
Record component_mesh (m : hmesh) : Prop := {
  cm_history : history m;
  cm_rv : rv m = [];
  cm_rf : rf m = [];
  cm_nonempty : verts m <> [] /\ faces m <> [];
  cm_small : zlen (verts m) < 2 ^ 31 /\ zlen (edges m) < 2 ^ 31 /\ zlen (faces m) < 2 ^ 31 }.

(** [rows] lists, for each face by increasing index, what [f] returns. *)
Definition rows_of (f : Z -> option (list Z)) (n : Z) (rows : list (list Z)) : Prop :=
  zlen rows = n /\ forall i, 0 <= i < n -> f i = vget rows i.

Definition total {A} (rows : list (list A)) : Z := zlen (concat rows).

(** coordinates of the vertices, in order *)
Definition coords (m : hmesh) : list Z :=
  concat (map (fun v => let '(x, y, z) := vpt v in [x; y; z]) (verts m)).

(** two faces share an edge *)
Definition share_edge (m : hmesh) (f g : Z) : Prop :=
  exists h, live_halfedge m h /\ face m h = Some f /\ face m (opposite h) = Some g.

(** a 32-bit number of helper threads *)
Definition pool_ok (e : env) : Prop := 0 <= e_pool e < 2 ^ 32 - 1.

(** faces in default or reversed winding order *)
Definition oriented (flip : bool) (rows : list (list Z)) : list (list Z) := map (fun r => if flip then rev r else r) rows.

(** pairs one after the other *)
Definition flat2 (l : list (Z * Z)) : list Z := concat (map (fun p => [fst p; snd p]) l).

(** the edges of a mesh in order of their descriptors, by their end points *)
Definition edge_list (m : hmesh) : list (Z * Z) :=
  map (fun e => match edge_ends m e with Some p => p | None => (null, null) end) (live_slots (zlen (edges m)) (re m)).

(** The face-index array is copied by one thread (up to 2^14 faces), or there are at most as many
    threads as blocks of 2^14 faces. *)
Definition face_copy_safe (pool nf : Z) : Prop := nf <= 2 ^ 14 \/ pool * 2 ^ 14 < nf.

(** An array of [n] elements is copied by one thread. *)
Definition one_block (e : env) (n : Z) : Prop := n <= 1024 \/ e_pool e = 0.

(** A component as created by a dispatch, and after any number of queries (only these four have
    an effect on the component). *)
Definition fresh (c : cc) : Prop := component_mesh (c_mesh c) /\ c_fsize c = None /\ c_asize c = None.
Inductive queried : cc -> cc -> Prop :=
| qd_none c : queried c c
| qd_face_size c c' e d : queried c c' -> queried c (snd (q_face_size e c' d))
| qd_adj_size c c' e d : queried c c' -> queried c (snd (q_adj_size e c' d))
| qd_face c c' e seen d : queried c c' -> queried c (snd (q_face e c' seen d))
| qd_adj c c' e seen d : queried c c' -> queried c (snd (q_adj e c' seen d)).
