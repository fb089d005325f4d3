(** The order of the points along an edge: linear_projection_sort. *)
From Coq Require Import List Arith Reals Lra Lia Permutation Sorting.
From Verif Require Import SplitModel SplitSpec.
Import ListNotations.
Open Scope R_scope.

(** ** Sorting *)
Lemma sorted_unique (l l' : list (nat * R)) : Permutation l l' -> StronglySorted (fun a b => snd a <= snd b) l -> StronglySorted (fun a b => snd a < snd b) l' -> l = l'.
Proof.
  revert l'. induction l as [|x l IH]; intros l' P S S'; [apply Permutation_nil in P; subst; reflexivity|]. destruct l' as [|y l']; [apply Permutation_sym, Permutation_nil in P; discriminate|].
  inversion_clear S as [|? ? S1 S2]. inversion_clear S' as [|? ? S1' S2']. rewrite Forall_forall in S2, S2'.
  assert (E : x = y). { assert (I : In x (y :: l')) by (eapply Permutation_in; [exact P|left; reflexivity]). destruct I as [E|I]; [symmetry; exact E|]. assert (J : In y (x :: l)) by (eapply Permutation_in; [symmetry; exact P|left; reflexivity]). destruct J as [E|J]; [exact E|]. apply S2' in I. apply S2 in J. lra. }
  subst y. f_equal. apply IH; [eapply Permutation_cons_inv; exact P|assumption|assumption].
Qed.
Lemma sorted_by (sort : list (nat * R) -> list (nat * R)) (k : nat -> R) vs ws : sorting sort -> Permutation vs ws -> StronglySorted (fun v w => k v < k w) ws -> map fst (sort (map (fun v => (v, k v)) vs)) = ws.
Proof.
  intros C P S. destruct (C (map (fun v => (v, k v)) vs)) as [P' S']. rewrite (sorted_unique _ (map (fun v => (v, k v)) ws) (Permutation_trans P' (Permutation_map _ P)) S').
  - rewrite map_map. apply map_id.
  - clear - S. induction S as [|v ws S IH F]; [constructor|]. cbn. constructor; [exact IH|]. rewrite Forall_forall in *. intros p I. apply in_map_iff in I. destruct I as (w & <- & I). cbn. apply F, I.
Qed.

Section Key.
Variable rnd : R -> R.
Variable sort : list (nat * R) -> list (nat * R).
Variable position : nat -> vec.
Definition key_on (a b v : nat) : R := projection rnd (position a) (position b) (position v).
Lemma sorted_vertices_way pends e pts mid : sorting sort -> Permutation mid pts -> StronglySorted (fun v w => key_on (fst (pends e)) (snd (pends e)) v < key_on (fst (pends e)) (snd (pends e)) w) (fst (pends e) :: mid ++ [snd (pends e)]) ->
  sorted_vertices rnd sort position pends (e, pts) = Some (fst (pends e) :: mid ++ [snd (pends e)]).
Proof.
  intros C P S. unfold sorted_vertices, linear_projection_sort. cbn [fst snd app map]. f_equal. rewrite map_map. cbn [fst snd].
  apply (sorted_by sort (key_on (fst (pends e)) (snd (pends e))) (fst (pends e) :: snd (pends e) :: pts)); [exact C| |exact S]. constructor. rewrite <- P. apply Permutation_cons_append.
Qed.
End Key.

(** ** Exact arithmetic *)
Lemma sq_pos3 x y z : (x, y, z) <> (0, 0, 0) -> 0 < x * x + y * y + z * z.
Proof.
  intros N. pose proof (Rle_0_sqr x) as A. pose proof (Rle_0_sqr y) as B. pose proof (Rle_0_sqr z) as C. unfold Rsqr in *. destruct (Rle_lt_dec (x * x + y * y + z * z) 0) as [L|L]; [|exact L]. exfalso. apply N.
  assert (x * x = 0) as X by lra. assert (y * y = 0) as Y by lra. assert (z * z = 0) as Z by lra. apply Rsqr_eq_0 in X. apply Rsqr_eq_0 in Y. apply Rsqr_eq_0 in Z. subst. reflexivity.
Qed.
Lemma exact_projection (o d : point) : o <> d -> exists L, 0 < L /\ forall t, projection (fun x => x) o d (between_ratio o d t) = t * L.
Proof.
  destruct o as [[x y] z], d as [[x' y'] z']. intros N. unfold projection, vminus, between_ratio, normalize, dot_product.
  set (q := (0 + (x - x') * (x - x') + (y - y') * (y - y') + (z - z') * (z - z'))).
  assert (Q : 0 < q). { unfold q. rewrite Rplus_0_l. apply sq_pos3. intros E. apply N. injection E as E1 E2 E3. f_equal; [f_equal|]; lra. }
  exists (sqrt q). split; [apply sqrt_lt_R0, Q|]. intros t. assert (S : 0 < sqrt q) by (apply sqrt_lt_R0, Q). assert (SQ : sqrt q * sqrt q = q) by (apply sqrt_sqrt; lra).
  transitivity (t * (q / sqrt q)); [unfold q at 4; field; lra|]. f_equal. rewrite <- SQ at 1. field. lra.
Qed.
Lemma straight_sorted (position : nat -> point) a mid b (ratio : nat -> R) : position a <> position b ->
  (forall v, In v mid -> 0 < ratio v < 1 /\ position v = between_ratio (position a) (position b) (ratio v)) -> StronglySorted (fun v w => ratio v < ratio w) mid ->
  StronglySorted (fun v w => key_on (fun x => x) position a b v < key_on (fun x => x) position a b w) (a :: mid ++ [b]).
Proof.
  intros N M S. unfold key_on. destruct (exact_projection (position a) (position b) N) as (L & LP & K).
  assert (K0 : projection (fun x => x) (position a) (position b) (position a) = 0). { replace (position a) with (between_ratio (position a) (position b) 0) at 2; [rewrite K; lra|]. destruct (position a) as [[x y] z], (position b) as [[x' y'] z']. unfold between_ratio. f_equal; [f_equal|]; ring. }
  assert (K1 : projection (fun x => x) (position a) (position b) (position b) = L). { replace (position b) with (between_ratio (position a) (position b) 1) at 2; [rewrite K; lra|]. destruct (position a) as [[x y] z], (position b) as [[x' y'] z']. unfold between_ratio. f_equal; [f_equal|]; ring. }
  assert (KM : forall v, In v mid -> projection (fun x => x) (position a) (position b) (position v) = ratio v * L) by (intros v I; rewrite (proj2 (M v I)); apply K).
  constructor.
  - clear K. induction S as [|v mid S IH F]; [constructor; [constructor|constructor]|]. cbn. constructor; [apply IH; intros; [apply M|apply KM]; right; assumption|]. rewrite Forall_forall in *. intros w I. rewrite (KM v (or_introl eq_refl)). apply in_app_iff in I. destruct I as [I|[<-|[]]].
    + rewrite (KM w (or_intror I)). apply Rmult_lt_compat_r; [exact LP|apply F, I].
    + rewrite K1. destruct (M v (or_introl eq_refl)) as [[_ R1] _]. apply Rle_lt_trans with (ratio v * L); [lra|]. rewrite <- (Rmult_1_l L) at 2. apply Rmult_lt_compat_r; assumption.
  - rewrite Forall_forall. intros w I. rewrite K0. apply in_app_iff in I. destruct I as [I|[<-|[]]]; [|rewrite K1; exact LP]. rewrite (KM w I). destruct (M w I) as [[R0 _] _]. apply Rmult_lt_0_compat; assumption.
Qed.

(** ** Rounded arithmetic: only that rounding keeps the order is used *)
Section Rounded.
Variable rnd : R -> R.
Hypothesis rnd_le : forall x y, x <= y -> rnd x <= rnd y.
Hypothesis rnd_0 : rnd 0 = 0.
Lemma rnd_pos x : 0 <= x -> 0 <= rnd x. Proof. intros H. rewrite <- rnd_0. apply rnd_le, H. Qed.
Lemma rnd_neg x : x <= 0 -> rnd x <= 0. Proof. intros H. rewrite <- rnd_0. apply rnd_le, H. Qed.
Lemma inv_pos l : 0 <= l -> 0 <= / l.
Proof. intros H. destruct (Req_dec l 0) as [->|N]; [rewrite Rinv_0; lra|]. left. apply Rinv_0_lt_compat. lra. Qed.
(** one coordinate: o, d, p, q are the coordinates of the ends and of two points, [g] is the coordinate of the direction *)
Lemma coordinate o d p q l : 0 <= l -> (o <= p <= q /\ q <= d) \/ (o >= p /\ p >= q /\ q >= d) ->
  rnd (rnd (o - p) * rnd (rnd (o - d) / l)) <= rnd (rnd (o - q) * rnd (rnd (o - d) / l)).
Proof.
  intros L H. apply rnd_le. set (g := rnd (rnd (o - d) / l)). pose proof (inv_pos l L) as IL.
  destruct H as [[[A B] C]|(A & B & C)].
  - assert (G : g <= 0). { apply rnd_neg. unfold Rdiv. assert (rnd (o - d) <= 0) by (apply rnd_neg; lra). assert (0 <= - rnd (o - d) * / l) by (apply Rmult_le_pos; lra). lra. }
    assert (rnd (o - q) <= rnd (o - p)) by (apply rnd_le; lra). assert (0 <= (rnd (o - p) - rnd (o - q)) * - g) by (apply Rmult_le_pos; lra). lra.
  - assert (G : 0 <= g). { apply rnd_pos. unfold Rdiv. apply Rmult_le_pos; [apply rnd_pos; lra|exact IL]. }
    assert (rnd (o - p) <= rnd (o - q)) by (apply rnd_le; lra). assert (0 <= (rnd (o - q) - rnd (o - p)) * g) by (apply Rmult_le_pos; lra). lra.
Qed.
Definition ordered4 (o p q d : R) : Prop := (o <= p <= q /\ q <= d) \/ (o >= p /\ p >= q /\ q >= d).
Lemma projection_le (o d p q : point) : (forall i, ordered4 (coord i o) (coord i p) (coord i q) (coord i d)) -> projection rnd o d p <= projection rnd o d q.
Proof.
  intros H. pose proof (H 0%nat) as H0. pose proof (H 1%nat) as H1. pose proof (H 2%nat) as H2. clear H. destruct o as [[x y] z], d as [[x' y'] z'], p as [[px py] pz], q as [[qx qy] qz]. cbn [coord] in *. unfold projection, vminus, normalize. set (l := rnd (sqrt _)).
  assert (L : 0 <= l) by (apply rnd_pos, sqrt_pos). unfold dot_product.
  pose proof (coordinate x x' px qx l L H0) as C0. pose proof (coordinate y y' py qy l L H1) as C1. pose proof (coordinate z z' pz qz l L H2) as C2.
  apply rnd_le, Rplus_le_compat; [|exact C2]. apply rnd_le, Rplus_le_compat; [|exact C1]. apply rnd_le. lra.
Qed.
Lemma monotone_pair (position : nat -> point) a mid b : monotone position (a :: mid ++ [b]) ->
  StronglySorted (fun v w => projection rnd (position a) (position b) (position v) <= projection rnd (position a) (position b) (position w)) (a :: mid ++ [b]).
Proof.
  intros M. set (W := a :: mid ++ [b]).
  assert (G : forall X Y v w Z, W = X ++ v :: Y ++ w :: Z -> projection rnd (position a) (position b) (position v) <= projection rnd (position a) (position b) (position w)).
  { intros X Y v w Z E. apply projection_le. intros i.
    assert (SS : forall (Rel : nat -> nat -> Prop), (forall u, Rel u u) -> StronglySorted Rel W -> Rel a v /\ Rel v w /\ Rel w b).
    { intros Rel RF S. assert (T : forall X' (s t : nat) U V, W = X' ++ s :: U ++ t :: V -> Rel s t).
      { clear - S. induction S as [|x l S IH F]; intros X' s t U V E; [destruct X'; discriminate|]. destruct X' as [|x0 X']; cbn in E; [injection E as <- ->|injection E as _ ->; eapply IH; reflexivity]. rewrite Forall_forall in F. apply F, in_app_iff. right. left. reflexivity. }
      split; [|split].
      - destruct X as [|x X]; cbn in E; [unfold W in E; injection E as -> _; apply RF|]. unfold W in E. injection E as <- E. apply (T [] a v X (Y ++ w :: Z)). cbn. unfold W. rewrite E. reflexivity.
      - apply (T X v w Y Z E).
      - destruct (@exists_last _ (w :: Z)) as (Z' & z & EZ); [discriminate|]. assert (z = b). { rewrite EZ in E. unfold W in E. rewrite app_comm_cons in E. replace (X ++ v :: Y ++ Z' ++ [z]) with ((X ++ v :: Y ++ Z') ++ [z]) in E by (rewrite <- app_assoc; cbn; rewrite <- app_assoc; reflexivity). apply app_inj_tail in E. symmetry. exact (proj2 E). } subst z.
        destruct Z' as [|w' Z']; cbn in EZ; [injection EZ as -> _; apply RF|]. injection EZ as <- EZ. apply (T (X ++ v :: Y) w b Z' []). rewrite E, EZ, <- app_assoc. reflexivity. }
    destruct (M i) as [S|S]; [left|right].
    - destruct (SS _ (fun u => Rle_refl _) S) as (A & B & C). auto.
    - destruct (SS _ (fun u => Rge_refl _) S) as (A & B & C). auto. }
  clear M. clearbody W. revert G. generalize a b. intros a' b' G.
  assert (G' : forall W0 W1, W = W0 ++ W1 -> StronglySorted (fun v w => projection rnd (position a') (position b') (position v) <= projection rnd (position a') (position b') (position w)) W1).
  { intros W0 W1. revert W0. induction W1 as [|v W1 IH]; intros W0 E; [constructor|]. constructor; [apply (IH (W0 ++ [v])); rewrite E, <- app_assoc; reflexivity|]. rewrite Forall_forall. intros w I. apply in_split in I. destruct I as (Y & Z & ->). apply (G W0 Y v w Z). exact E. }
  apply (G' []). reflexivity.
Qed.
Lemma monotone_sorted (position : nat -> point) a mid b : monotone position (a :: mid ++ [b]) -> NoDup (map (key_on rnd position a b) (a :: mid ++ [b])) ->
  StronglySorted (fun v w => key_on rnd position a b v < key_on rnd position a b w) (a :: mid ++ [b]).
Proof.
  intros M N. apply monotone_pair in M. revert N. unfold key_on. generalize dependent (a :: mid ++ [b]). intros W S N. induction S as [|v W S IH F]; [constructor|]. cbn in N. inversion_clear N as [|? ? N1 N2]. constructor; [apply IH, N2|]. rewrite Forall_forall in *. intros w I. pose proof (F w I) as L. destruct L as [L|E]; [exact L|]. exfalso. apply N1. rewrite E. apply (in_map (fun v => projection rnd (position a) (position b) (position v))), I.
Qed.
End Rounded.
