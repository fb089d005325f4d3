(** Model of the seam-vertex-sequence query (source/frontend.cpp:2825-3075,
    MC_CONNECTED_COMPONENT_DATA_SEAM_VERTEX_SEQUENCE). *)
From Coq Require Import List ZArith Bool.
From Verif Require Import Vec HmeshModel ParModel DataModel.
Import ListNotations.
Open Scope Z_scope.

(** hmesh.cpp:848-856 [get_halfedges_around_vertex] and [source]: the half-edges that point to
    [v], with their sources. *)
Definition arrivals (m : hmesh) (v : Z) : option (list (Z * Z)) :=
  do d <- vget (verts m) v;
  omap (fun h => do s <- source m h; Some (s, h)) (vhs d).

(** frontend.cpp:2902-2920 (without [skip]) and 2948-2971: the untraversed seam vertices among the
    sources are pushed and marked.  [keys] are the keys of the map [traversed_seam_vertices],
    [trav] those whose value is true.  Result: stack (top first), marks, number pushed. *)
Fixpoint push_untraversed (skip : option Z) (keys : list Z) (l stack : list (Z * Z)) (trav : list Z) (count : Z)
  : list (Z * Z) * list Z * Z :=
  match l with
  | [] => (stack, trav, count)
  | (src, h) :: r =>
      if match skip with Some e => edge_of h =? e | None => false end
      then push_untraversed skip keys r stack trav count
      else if zmem src keys && negb (zmem src trav)
      then push_untraversed skip keys r ((src, h) :: stack) (src :: trav) (count + 1)
      else push_untraversed skip keys r stack trav count
  end.

(** frontend.cpp:2931-2987, the loop over the stack; [acc] are the vertices of the current
    sequence.  [None] only when the fuel runs out or the mesh is inconsistent. *)
Fixpoint walk (fuel : nat) (m : hmesh) (keys : list Z) (stack : list (Z * Z)) (trav acc : list Z)
  : option (list Z * list Z) :=
  match fuel with
  | O => None
  | S fuel' =>
      match stack with
      | [] => None                      (* top() of an empty stack *)
      | (v, h) :: rest =>
          let acc := acc ++ [v] in
          do l <- arrivals m v;
          let '(stack', trav', count) := push_untraversed (Some (edge_of h)) keys l rest trav 0 in
          let empty := match stack' with [] => true | _ => false end in
          let acc := if (count =? 0) && negb empty then rev acc else acc in
          if empty then Some (acc, trav') else walk fuel' m keys stack' trav' acc
      end
  end.

(** frontend.cpp:2994-3018: the number of seam neighbours of the first vertex of the sequence *)
Definition seam_degree (m : hmesh) (keys : list Z) (v : Z) : option Z :=
  do l <- arrivals m v;
  Some (zlen (filter (fun p => zmem (fst p) keys) l)).

(** frontend.cpp:2855-3045, one iteration of the outer loop from a given seed: the sequence, the
    flag and the traversed vertices. *)
Definition sequence (m : hmesh) (keys : list Z) (seed : Z) : option (list Z * bool * list Z) :=
  do l <- arrivals m seed;
  let '(stack, trav, _) := push_untraversed None keys l [] [seed] 0 in
  let one := match stack with [_] => true | _ => false end in
  do r <- walk (S (length keys)) m keys stack trav [seed];
  let '(acc, trav') := r in
  do loop <- (if one then Some false
              else match acc with
                   | [] => None
                   | first :: _ => do n <- seam_degree m keys first; Some (n =? 2)
                   end);
  Some (acc, loop, trav').

(** the keys that are left (3037-3044) *)
Definition remove_traversed (keys trav : list Z) : list Z := filter (fun k => negb (zmem k trav)) keys.

(** frontend.cpp:2854-3047, the outer loop.  The seed is the first element of an unordered map:
    [pick] stands for any choice. *)
Fixpoint sequences (fuel : nat) (m : hmesh) (pick : list Z -> Z) (keys : list Z) : option (list (list Z * bool)) :=
  match fuel with
  | O => None
  | S fuel' =>
      match keys with
      | [] => None                      (* dereferencing end() *)
      | _ =>
          do r <- sequence m keys (pick keys);
          let '(s, loop, trav) := r in
          let keys' := remove_traversed keys trav in
          match keys' with
          | [] => Some [(s, loop)]
          | _ => do rest <- sequences fuel' m pick keys'; Some ((s, loop) :: rest)
          end
      end
  end.

(** the array: number of sequences, then for each one its length, its flag and its vertices *)
Definition encode (l : list (list Z * bool)) : list Z :=
  zlen l :: concat (map (fun p : list Z * bool => zlen (fst p) :: (if snd p then 1 else 0) :: fst p) l).

(** frontend.cpp:2841-3048: keys of the map, without repetitions *)
Definition sequence_array (m : hmesh) (pick : list Z -> Z) (seam : list Z) : option (list Z) :=
  let keys := nodup Z.eq_dec seam in
  option_map encode (sequences (length keys) m pick keys).

(** frontend.cpp:2825-2829 and 3050-3074: the query, [cache] being
    seam_vertex_sequence_array_cache ([None] = empty). *)
Definition q_sequence (pick : list Z -> Z) (c : cc) (cache : option (list Z)) (d : dest) : reply * option (list Z) :=
  if c_type c =? TYPE_INPUT then (Throws, cache) else
  match (match cache with Some l => Some l | None => sequence_array (c_mesh c) pick (c_seam c) end) with
  | None => (Crash, cache)
  | Some l =>
      match d with
      | Null => (Bytes (zlen l * 4), Some l)
      | Buffer bytes =>
          if zlen l * 4 <? bytes then (Throws, Some l) else
          if negb (bytes mod 4 =? 0) then (Throws, Some l) else
          (Stores 4 [store_all 0 (firstn (Z.to_nat (wrap32 (bytes / 4))) l)], Some l)
      end
  end.
