(** Property theorems C17 and C18 (conversion of the user's arrays to the internal mesh). *)
From Coq Require Import List ZArith Lia Bool.
From Verif Require Import Vec VecLemmas HmeshModel HmeshSpec HmeshCore ParModel ParProofs ParSumModel ParSumSpec ParSumProofs InputModel InputSpec InputProofs InputPar.
Import ListNotations.
Open Scope Z_scope.

(** Every pair of arrays in which the index array is long enough describes a list of faces, so
    the theorems below speak about all such arrays. *)
Lemma arrays_describe_faces : forall (l idx : list Z),
  (forall n, In n l -> 0 <= n) -> fold_right Z.add 0 l <= zlen idx ->
  exists fs, describes (Some l) idx fs.
Proof.
  intros l. unfold describes. induction l as [|n l IH]; intros idx Hn Hs.
  - exists []. split; [exists idx; reflexivity|reflexivity].
  - cbn in Hs. assert (Hn0 : 0 <= n) by (apply Hn; left; reflexivity).
    assert (Hp : 0 <= fold_right Z.add 0 l).
    { clear - Hn. induction l as [|x l IH]; cbn; [lia|]. assert (0 <= x) by (apply Hn; right; left; reflexivity).
      assert (0 <= fold_right Z.add 0 l); [|lia]. apply IH. intros y [->|Hy]; apply Hn; [left; reflexivity|right; right; exact Hy]. }
    destruct (IH (skipn (Z.to_nat n) idx)) as (fs & (rest & E) & El).
    + intros x Hx. apply Hn. right. exact Hx.
    + unfold zlen in *. rewrite skipn_length. lia.
    + exists (firstn (Z.to_nat n) idx :: fs). split.
      * exists rest. cbn. rewrite <- app_assoc, <- E. symmetry. apply firstn_skipn.
      * cbn. f_equal; [|exact El]. unfold zlen in *. rewrite firstn_length. lia.
Qed.

Lemma arrays_describe_triangles : forall (n : nat) (idx : list Z),
  3 * Z.of_nat n <= zlen idx -> exists fs, describes None idx fs /\ zlen fs = Z.of_nat n.
Proof.
  unfold describes. induction n as [|n IH]; intros idx Hs.
  - exists []. split; [|reflexivity]. split; [exists idx; reflexivity|intros f []].
  - destruct (IH (skipn 3 idx)) as (fs & [(rest & E) Ht] & El); [unfold zlen in *; rewrite skipn_length; lia|].
    exists (firstn 3 idx :: fs). split; [split|].
    + exists rest. cbn [concat]. rewrite <- app_assoc, <- E. symmetry. apply firstn_skipn.
    + intros f [<-|Hf]; [|apply Ht; exact Hf]. rewrite firstn_length. unfold zlen in Hs. lia.
    + unfold zlen in *. cbn [length]. lia.
Qed.

(** C17.  For every vertex array and every face list that the index and size arrays describe
    (fewer than 2^31 indices, the code counts them in an int): the conversion never reads outside the
    arrays; well-formed faces are accepted, and the resulting mesh has exactly the user's
    vertices and faces under the user's numbers (and is a mesh that the editing API can
    produce, so C12-C16 apply to it); faces that are not well formed are refused. *)
Theorem C17_accepted_iff_well_formed : forall coords sizes idx fs,
  describes sizes idx fs -> (forall x, In x (concat fs) -> 0 <= x) -> zlen (concat fs) < 2 ^ 31 ->
  (well_formed (zlen coords) fs ->
     exists m, seq_convert coords sizes idx (zlen fs) = CAccept m /\ history m /\ mirrors coords fs m) /\
  (~ well_formed (zlen coords) fs -> seq_convert coords sizes idx (zlen fs) = CRefuse).
Proof.
  intros coords sizes idx fs D Hr Hl. destruct (seq_convert_spec coords sizes idx fs D Hr Hl) as (m & _ & B & R).
  exact (result_spec coords m fs _ B Hr R).
Qed.
Print Assumptions C17_accepted_iff_well_formed.

Definition as_result (r : option hmesh) : conv_res := match r with Some m => CAccept m | None => CRefuse end.

(** C18.  The same arrays (at least one face), converted with any number of helper threads:
    the conversion starts; in every state reachable under some schedule, no thread performs an invalid
    access, and unless the call has returned some thread can take a step; schedules have bounded
    length; and when the call returns, it returns what the sequential conversion
    returns and no thread is still working on the arrays. *)
Theorem C18_parallel_equals_sequential : forall pool coords sizes idx fs,
  describes sizes idx fs -> (forall x, In x (concat fs) -> 0 <= x) -> zlen (concat fs) < 2 ^ 31 ->
  1 <= zlen fs -> zlen fs + 1023 < 2 ^ 32 -> 0 <= pool < 2 ^ 32 - 1 ->
  exists c a s0, par_start pool coords sizes idx (zlen fs) = Some (c, a, s0) /\ 1 <= c_n c <= pool + 1 /\
    (forall s, creach c a s0 s ->
       (forall i, 0 <= i < c_n c -> cstep c a s i <> Crash) /\
       ((exists r, c_col s = Returned r) \/ exists i s', 0 <= i < c_n c /\ cstep c a s i = Next s') /\
       (forall r, c_col s = Returned r ->
          seq_convert coords sizes idx (zlen fs) = as_result r /\
          forall i, 0 <= i < c_n c -> spc (c_sum s) i = Fin /\ c_pc s i = Checked)) /\
    exists bound, forall sched s', (forall i, In i sched -> 0 <= i < c_n c) ->
      crun c a sched s0 = Some s' -> Z.of_nat (length sched) <= bound.
Proof.
  intros pool coords sizes idx fs D Hr Hl Hn Ho Hp.
  destruct (seq_convert_spec coords sizes idx fs D Hr Hl) as (m & Em & B & R).
  destruct (sum_cfg_good pool (zlen fs) Hn Hp Ho) as (c & Ec & G & EL & N).
  assert (P1 : 1 <= 1024) by lia. assert (P2 : zlen fs + 1024 - 1 < 2 ^ 32) by lia.
  destruct (plan_ok pool (zlen fs) 1024 Hn Hp P1 P2) as (w & ms & Ep & _).
  destruct D as [[rest Ei] Hs]. change (sizes_ok sizes fs) in Hs.
  assert (HL : c_len c = zlen (map zlen fs)) by (rewrite zlen_map; exact EL).
  assert (Es : omap (face_size sizes) (zrange (zlen fs)) = Some (map zlen fs)).
  { clear - Hs. unfold zrange. replace (Z.to_nat (zlen fs)) with (length fs) by (unfold zlen; lia).
    assert (K : forall n pre post, fs = pre ++ post -> n = length post ->
              omap (face_size sizes) (map Z.of_nat (seq (length pre) n)) = Some (map zlen post)).
    { induction n as [|n IH]; intros pre post E Hn; destruct post as [|f post]; try discriminate; [reflexivity|]. cbn [seq map omap].
      assert (Ef : vget fs (Z.of_nat (length pre)) = Some f).
      { rewrite E. unfold vget. destruct (Z.ltb_spec (Z.of_nat (length pre)) 0); [lia|]. rewrite Nat2Z.id, nth_error_app2, Nat.sub_diag by lia. reflexivity. }
      rewrite (face_size_ok sizes fs _ f Hs Ef). cbn [obind]. specialize (IH (pre ++ [f]) post). rewrite app_length, Nat.add_1_r in IH.
      cbn in Hn. rewrite IH; [reflexivity| |lia]. rewrite <- app_assoc. exact E. }
    apply (K (length fs) [] fs); reflexivity. }
  exists c, (Arr (zlen coords) sizes idx (zlen fs)), (cinit c (zlen fs) (map zlen fs) m).
  split; [unfold par_start; rewrite Em, Es; cbn [obind]; rewrite Ec; cbn [obind]; rewrite Ep; reflexivity|].
  split; [split; [apply G|exact N]|].
  rewrite Ei. rewrite Ei in R. split.
  - intros s Hs'. assert (I : CInv c coords fs m s) by (eapply creach_inv; eassumption). split; [|split].
    + intros i Hi K. pose proof (cstep_ok c coords sizes rest fs m Hs Hr Hl B G HL s i I Hi) as S. rewrite K in S. exact S.
    + eapply cprogress; eassumption.
    + intros r Er. split.
      * assert (K : seq_convert coords sizes (concat fs ++ rest) (zlen fs) = match r with Some m => CAccept m | None => CRefuse end) by (eapply creturned; eassumption). rewrite K. destruct r; reflexivity.
      * intros i Hi. pose proof (ci_col _ _ _ _ _ I) as Cl. unfold col_inv in Cl. rewrite Er in Cl. destruct Cl as [Cl _].
        split; [apply (ci_fin _ _ _ _ _ I i Hi), Cl, Hi|apply Cl, Hi].
  - eexists. intros sched s' Hi E. eapply (crun_bounded c coords sizes rest fs m Hs Hr Hl B G HL); [|exact Hi|exact E]. apply cinit_inv; assumption.
Qed.
Print Assumptions C18_parallel_equals_sequential.

(** ** Concrete instances *)
Definition tri_coords : list point := [(0, 0, 0); (1, 0, 0); (0, 1, 0); (1, 1, 0)].
Definition tri_faces : list (list Z) := [[0; 1; 2]; [2; 1; 3]].

Example C17_instance : describes None [0; 1; 2; 2; 1; 3] tri_faces /\ (forall x, In x (concat tri_faces) -> 0 <= x) /\
  zlen (concat tri_faces) < 2 ^ 31 /\ well_formed (zlen tri_coords) tri_faces.
Proof.
  split; [|split; [|split]].
  - split; [exists []; reflexivity|]. intros f [<-|[<-|[]]]; reflexivity.
  - cbn. intros x [<-|[<-|[<-|[<-|[<-|[<-|[]]]]]]]; lia.
  - vm_compute. reflexivity.
  - constructor.
    + intros f [<-|[<-|[]]]; cbn; lia.
    + intros f v [<-|[<-|[]]] H; cbn in H; unfold zlen; cbn; intuition lia.
    + intros f [<-|[<-|[]]]; repeat (constructor; [cbn; intuition lia|]); constructor.
    + cbn. repeat (constructor; [cbn; intuition congruence|]). constructor.
Qed.

(** A face list with a repeated directed edge is not well formed and is refused. *)
Example C17_refusal : ~ well_formed 4 [[0; 1; 2]; [0; 1; 3]] /\
  seq_convert tri_coords (Some [3; 3]) [0; 1; 2; 0; 1; 3] 2 = CRefuse.
Proof.
  split.
  - intros [_ _ _ W]. cbn in W. inversion W as [|x l N _]. apply N. cbn. auto.
  - vm_compute. reflexivity.
Qed.

(** Two threads can be started, and a schedule makes the call return a mesh. *)
Definition many_faces : list (list Z) := map (fun i => [3 * i; 3 * i + 1; 3 * i + 2]) (zrange 1025).
Example C18_instance : match par_start 3 (repeat (0, 0, 0) (Z.to_nat 3075)) None (concat many_faces) 1025 with
  | Some (c, _, _) => c_n c = 2 | None => False end.
Proof. vm_compute. reflexivity. Qed.

Example C18_instance_returns : match par_start 3 tri_coords None (concat tri_faces) 2 with
  | Some (c, a, s0) => match crun c a (repeat 0 7) s0 with
                       | Some s => match c_col s with Returned (Some m) => number_of_faces m = 2 | _ => False end
                       | None => False end
  | None => False end.
Proof. vm_compute. reflexivity. Qed.
