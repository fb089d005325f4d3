From Coq Require Import List ZArith Lia Bool Permutation.
From Verif Require Import Vec VecLemmas HmeshModel HmeshSpec HmeshCore HmeshFaces HmeshProps InputProofs ParModel DataModel DataSpec DataProofs DataFull DataRows DataProps SeqModel SeqSpec.
Import ListNotations.
Open Scope Z_scope.
Ltac Zify.zify_post_hook ::= idtac.

Lemma zmem_In x l : zmem x l = true <-> In x l.
Proof. unfold zmem. rewrite existsb_exists. split; [intros (y & H & E); apply Z.eqb_eq in E; subst; exact H|]. intros H. exists x. split; [exact H|apply Z.eqb_refl]. Qed.
Lemma zmem_notIn x l : zmem x l = false <-> ~ In x l.
Proof. rewrite <- zmem_In. destruct (zmem x l); intuition congruence. Qed.

Lemma NoDup_app_mk {A} (a b : list A) : NoDup a -> NoDup b -> (forall x, In x a -> In x b -> False) -> NoDup (a ++ b).
Proof.
  induction a as [|x a IH]; intros Na Nb H; [exact Nb|]. inversion Na. subst. cbn. constructor.
  - rewrite in_app_iff. intros [K|K]; [contradiction|]. apply (H x); [left; reflexivity|exact K].
  - apply IH; try assumption. intros y Hy. apply H. right. exact Hy.
Qed.
Lemma NoDup_app_fst {A} (a b : list A) : NoDup (a ++ b) -> NoDup a.
Proof. induction a as [|x a IH]; intros N; [constructor|]. inversion N. subst. constructor; [|apply IH; assumption]. rewrite in_app_iff in *. tauto. Qed.

(** ** Pushing *)

Definition skipped (skip : option Z) (h : Z) : Prop := match skip with Some e => edge_of h = e | None => False end.

Lemma push_spec skip keys l : forall stack trav count stack' trav' count',
  push_untraversed skip keys l stack trav count = (stack', trav', count') ->
  exists new, stack' = new ++ stack /\ trav' = map fst new ++ trav /\ count' = count + zlen new /\ NoDup (map fst new) /\
    (forall s h, In (s, h) new -> In (s, h) l /\ In s keys /\ ~ In s trav /\ ~ skipped skip h) /\
    (forall s h, In (s, h) l -> In s keys -> ~ skipped skip h -> In s trav').
Proof.
  induction l as [|[src h] r IH]; intros stack trav count stack' trav' count' E.
  - cbn in E. injection E as <- <- <-. exists []. cbn. repeat split; try lia; try tauto. constructor.
  - cbn [push_untraversed] in E.
    assert (Sk : match skip with Some e => edge_of h =? e | None => false end = true <-> skipped skip h).
    { unfold skipped. destruct skip; [apply Z.eqb_eq|intuition discriminate]. }
    destruct (match skip with Some e => edge_of h =? e | None => false end).
    + destruct (IH _ _ _ _ _ _ E) as (new & E1 & E2 & E3 & N & H1 & H2). exists new. repeat (split; [assumption|]). split.
      * intros s x Hx. destruct (H1 s x Hx) as (A & B). split; [right; exact A|exact B].
      * intros s x [Hx|Hx] Hs Ns; [|eauto]. injection Hx as <- <-. exfalso. apply Ns, Sk. reflexivity.
    + assert (Ns : ~ skipped skip h) by (intros K; apply Sk in K; discriminate). clear Sk.
      destruct (zmem src keys) eqn:Ek; cbn [andb] in E; [destruct (zmem src trav) eqn:Et; cbn [negb] in E|].
      * destruct (IH _ _ _ _ _ _ E) as (new & E1 & E2 & E3 & N & H1 & H2). exists new. repeat (split; [assumption|]). split.
        -- intros s x Hx. destruct (H1 s x Hx) as (A & B). split; [right; exact A|exact B].
        -- intros s x [Hx|Hx] Hs Ns'; [|eauto]. injection Hx as <- <-. rewrite E2. apply in_app_iff. right. apply zmem_In. exact Et.
      * destruct (IH _ _ _ _ _ _ E) as (new & E1 & E2 & E3 & N & H1 & H2). apply zmem_In in Ek. apply zmem_notIn in Et. exists (new ++ [(src, h)]). split; [rewrite <- app_assoc; exact E1|].
        split; [rewrite map_app, <- app_assoc; exact E2|]. split; [rewrite zlen_app; unfold zlen at 2; cbn [length]; lia|]. split; [|split].
        -- rewrite map_app. cbn. apply (Permutation_NoDup (Permutation_cons_append _ _)). constructor; [|exact N]. intros K. apply in_map_iff in K. destruct K as ([s x] & Es & Hx). cbn in Es. subst s.
           destruct (H1 src x Hx) as (_ & _ & A & _). apply A. left. reflexivity.
        -- intros s x Hx. apply in_app_iff in Hx. destruct Hx as [Hx|[Hx|[]]].
           ++ destruct (H1 s x Hx) as (A & B & C & D). split; [right; exact A|]. split; [exact B|]. split; [|exact D]. intros K. apply C. right. exact K.
           ++ injection Hx as <- <-. split; [left; reflexivity|auto].
        -- intros s x [Hx|Hx] Hs Ns'; [|eauto]. injection Hx as <- <-. rewrite E2. apply in_app_iff. right. left. reflexivity.
      * destruct (IH _ _ _ _ _ _ E) as (new & E1 & E2 & E3 & N & H1 & H2). apply zmem_notIn in Ek. exists new. repeat (split; [assumption|]). split.
        -- intros s x Hx. destruct (H1 s x Hx) as (A & B). split; [right; exact A|exact B].
        -- intros s x [Hx|Hx] Hs Ns'; [|eauto]. injection Hx as <- <-. contradiction.
Qed.

Section Mesh.
Variable m : hmesh.
Hypothesis C : component_mesh m.

Lemma arrivals_ok v : 0 <= v < zlen (verts m) -> exists l, arrivals m v = Some l /\ NoDup (map snd l) /\
  forall s h, In (s, h) l <-> live_halfedge m h /\ source m h = Some s /\ target m h = Some v.
Proof.
  intros Hv. pose proof (HInv_consistent m (history_inv m (cm_history m C))) as K. destruct (vget_range_Some (verts m) v Hv) as [d Ed].
  destruct (k_vertex m K v d (live_vertices m v C Hv) Ed) as [N H]. unfold arrivals. rewrite Ed. cbn [obind].
  destruct (omap_total (fun h => do s <- source m h; Some (s, h)) (vhs d)) as [l El].
  { intros h Hh. apply H in Hh. destruct (k_ends m K h (proj1 Hh)) as (a & b & Sa & _). rewrite Sa. cbn. eauto. }
  exists l. split; [exact El|]. split.
  - replace (map snd l) with (vhs d); [exact N|]. clear - El. revert l El. induction (vhs d) as [|h r IH]; intros l El; cbn in El; [injection El as <-; reflexivity|].
    destruct (source m h) as [s|]; [|discriminate]. cbn in El. destruct (omap _ r) as [l'|] eqn:E; [|discriminate]. cbn in El. injection El as <-. cbn. f_equal. apply IH. reflexivity.
  - intros s h. split.
    + intros Hi. destruct (omap_from _ _ _ _ El Hi) as (h' & Hh' & E'). destruct (source m h') as [s'|] eqn:Es; [|discriminate]. cbn in E'. injection E' as <- <-.
      apply H in Hh'. tauto.
    + intros (L & Sh & Th). assert (Hh : In h (vhs d)) by (apply H; auto). destruct (omap_In _ _ _ _ El Hh) as (y & Ey & Hy).
      rewrite Sh in Ey. cbn in Ey. injection Ey as <-. exact Hy.
Qed.

Lemma joined_sym a b : joined m a b -> joined m b a.
Proof.
  intros (h & L & S & T). pose proof (HInv_consistent m (history_inv m (cm_history m C))) as K.
  destruct (k_opposite m K h L) as (Lo & _). destruct (k_ends m K h L) as (a' & b' & Sa & Tb & _ & _ & _ & So & To).
  exists (opposite h). split; [exact Lo|]. split; congruence.
Qed.
Lemma joined_irrefl a : ~ joined m a a.
Proof.
  intros (h & L & S & T). pose proof (HInv_consistent m (history_inv m (cm_history m C))) as K.
  destruct (k_ends m K h L) as (a' & b' & Sa & Tb & Ne & _). congruence.
Qed.

(** the half-edge used to arrive at [v] is skipped: it leads back *)
Lemma skip_back h h' v : live_halfedge m h -> live_halfedge m h' -> source m h = Some v -> target m h' = Some v -> edge_of h' = edge_of h ->
  source m h' = target m h.
Proof.
  intros L L' S T E. pose proof (HInv_consistent m (history_inv m (cm_history m C))) as K.
  destruct (k_ends m K h L) as (a & b & Sa & Tb & Ne & _ & _ & So & To).
  assert (h' = opposite h \/ h' = h) as [->| ->].
  { destruct (k_opposite m K h L) as (_ & _ & Oo & _ & Le & Ch). destruct (k_opposite m K h' L') as (_ & _ & Oo' & _ & _ & Ch').
    destruct (k_edge m K _ Le) as (_ & _ & Oe). rewrite E in Ch'. destruct Ch as [Ch|Ch]; destruct Ch' as [Ch'|Ch']; rewrite Ch, Ch'; auto.
    left. rewrite <- Oe. rewrite Ch in Oo. rewrite <- Oe in Oo. congruence. }
  - congruence.
  - congruence.
Qed.

(** ** The walk *)

Section Walk.
Variable keys : list Z.
Hypothesis Keys : forall v, In v keys -> 0 <= v < zlen (verts m).

Definition entry (trav : list Z) (p : Z * Z) : Prop :=
  let '(v, h) := p in live_halfedge m h /\ source m h = Some v /\ exists t, target m h = Some t /\ In t trav.

Record winv (stack : list (Z * Z)) (trav acc : list Z) : Prop := {
  w_nodup : NoDup (acc ++ map fst stack);
  w_trav : forall x, In x trav <-> In x (acc ++ map fst stack);
  w_keys : forall x, In x trav -> In x keys;
  w_entry : forall p, In p stack -> entry trav p;
  w_closed : forall x y, In x acc -> In y keys -> joined m y x -> In y trav }.

Lemma winv_perm stack trav acc acc' : Permutation acc acc' -> winv stack trav acc -> winv stack trav acc'.
Proof.
  intros P [A B D E F]. assert (P' : Permutation (acc ++ map fst stack) (acc' ++ map fst stack)) by (apply Permutation_app_tail; exact P).
  constructor; try assumption.
  - eapply Permutation_NoDup; eassumption.
  - intros x. rewrite B. split; apply Permutation_in; [exact P'|apply Permutation_sym; exact P'].
  - intros x y Hx. apply F. apply (Permutation_in x (Permutation_sym P)). exact Hx.
Qed.

(** one step of the loop *)
Lemma walk_step v h rest trav acc : winv ((v, h) :: rest) trav acc -> exists l new,
  arrivals m v = Some l /\
  push_untraversed (Some (edge_of h)) keys l rest trav 0 = (new ++ rest, map fst new ++ trav, zlen new) /\
  winv (new ++ rest) (map fst new ++ trav) (acc ++ [v]) /\
  (forall s x, In (s, x) new -> In s keys /\ ~ In s trav /\ joined m s v) /\ NoDup (map fst new).
Proof.
  intros [A B D E F]. assert (Hv : In v keys) by (apply D, B; apply in_app_iff; right; left; reflexivity).
  destruct (arrivals_ok v (Keys v Hv)) as (l & El & Nl & Hl).
  destruct (push_untraversed (Some (edge_of h)) keys l rest trav 0) as [[stack' trav'] count'] eqn:Ep.
  destruct (push_spec _ _ _ _ _ _ _ _ _ Ep) as (new & -> & -> & Ec & Nn & H1 & H2). replace (0 + zlen new) with (zlen new) in Ec by lia. subst count'. exists l, new. split; [exact El|]. split; [exact Ep|].
  destruct (E (v, h) (or_introl eq_refl)) as (Lh & Sh & t & Th & Ht).
  assert (J : forall s x, In (s, x) new -> In s keys /\ ~ In s trav /\ joined m s v).
  { intros s x Hx. destruct (H1 s x Hx) as (K1 & K2 & K3 & _). apply Hl in K1. split; [exact K2|]. split; [exact K3|]. exists x. tauto. }
  split; [|split; [exact J|exact Nn]]. constructor.
  - rewrite map_app. cbn [map fst] in A. replace (acc ++ v :: map fst rest) with ((acc ++ [v]) ++ map fst rest) in A by (rewrite <- app_assoc; reflexivity).
    apply (Permutation_NoDup (l := map fst new ++ ((acc ++ [v]) ++ map fst rest))).
    + apply Permutation_app_swap_app.
    + apply NoDup_app_mk; [exact Nn|exact A|]. intros x Hx K. apply in_map_iff in Hx. destruct Hx as ([s y] & Es & Hy). cbn in Es. subst s.
      apply (proj1 (proj2 (J x y Hy))). apply B. rewrite <- app_assoc in K. exact K.
  - intros x. rewrite in_app_iff, B, map_app, !in_app_iff. cbn [map fst In]. tauto.
  - intros x Hx. apply in_app_iff in Hx. destruct Hx as [Hx|Hx]; [|apply D; exact Hx]. apply in_map_iff in Hx. destruct Hx as ([s y] & Es & Hy). cbn in Es. subst s. apply (J x y Hy).
  - intros p Hp. apply in_app_iff in Hp. destruct Hp as [Hp|Hp].
    + destruct p as [s x]. destruct (H1 s x Hp) as (K1 & _). apply Hl in K1. destruct K1 as (K1 & K2 & K3). split; [exact K1|]. split; [exact K2|]. exists v. split; [exact K3|].
      apply in_app_iff. right. apply B. apply in_app_iff. right. left. reflexivity.
    + pose proof (E p (or_intror Hp)) as Q. destruct p as [s x]. destruct Q as (Q1 & Q2 & u & Q3 & Q4). split; [exact Q1|]. split; [exact Q2|]. exists u. split; [exact Q3|]. apply in_app_iff. right. exact Q4.
  - intros x y Hx Hy J'. apply in_app_iff in Hx. destruct Hx as [Hx|[<-|[]]].
    + apply in_app_iff. right. eapply F; eassumption.
    + destruct J' as (g & Lg & Sg & Tg). destruct (Z.eq_dec (edge_of g) (edge_of h)) as [Eg|Ng].
      * pose proof (skip_back h g v Lh Lg Sh Tg Eg). assert (y = t) by congruence. subst. apply in_app_iff. right. exact Ht.
      * apply (H2 y g); [apply Hl; auto|exact Hy|exact Ng].
Qed.

Lemma walk_ok fuel : forall stack trav acc, winv stack trav acc -> stack <> [] -> (length keys < fuel + length acc)%nat ->
  exists acc' trav', walk fuel m keys stack trav acc = Some (acc', trav') /\ winv [] trav' acc' /\ (forall x, In x acc -> In x acc') /\
    (forall x, In x (map fst stack) -> In x acc').
Proof.
  induction fuel as [|fuel IH]; intros stack trav acc W Ne Hf.
  - exfalso. assert (length acc <= length keys)%nat; [|lia]. apply NoDup_incl_length.
    + pose proof (w_nodup _ _ _ W) as N. apply NoDup_app_fst in N. exact N.
    + intros x Hx. apply (w_keys _ _ _ W), (w_trav _ _ _ W), in_app_iff. left. exact Hx.
  - destruct stack as [|[v h] rest]; [congruence|]. destruct (walk_step v h rest trav acc W) as (l & new & El & Ep & W' & _ & _).
    cbn [walk]. rewrite El. cbn [obind]. rewrite Ep. destruct (new ++ rest) as [|q s'] eqn:Es.
    + cbn [negb]. rewrite andb_false_r. exists (acc ++ [v]), (map fst new ++ trav). split; [reflexivity|]. split; [exact W'|].
      apply app_eq_nil in Es. destruct Es as [-> ->]. split; intros x Hx; apply in_app_iff; [left; exact Hx|right; exact Hx].
    + cbn [negb]. rewrite andb_true_r. set (acc1 := if zlen new =? 0 then rev (acc ++ [v]) else acc ++ [v]).
      assert (Pm : Permutation (acc ++ [v]) acc1) by (unfold acc1; destruct (_ =? _); [apply Permutation_rev|apply Permutation_refl]).
      destruct (IH (q :: s') (map fst new ++ trav) acc1) as (acc' & trav' & Ew & Wf & I1 & I2).
      * eapply winv_perm; eassumption.
      * discriminate.
      * rewrite <- (Permutation_length Pm), app_length. cbn. lia.
      * exists acc', trav'. split; [exact Ew|]. split; [exact Wf|]. rewrite <- Es in I2. rewrite map_app in I2. split.
        -- intros x Hx. apply I1. apply (Permutation_in x Pm). apply in_app_iff. left. exact Hx.
        -- intros x [Hx|Hx]; [|apply I2, in_app_iff; right; exact Hx]. cbn in Hx. subst x. apply I1. apply (Permutation_in v Pm). apply in_app_iff. right. left. reflexivity.
Qed.

(** ** One sequence *)

Definition closed (l : list Z) : Prop := forall x y, In x l -> In y keys -> joined m y x -> In y l.

Lemma start_ok seed : In seed keys -> exists l new,
  arrivals m seed = Some l /\ push_untraversed None keys l [] [seed] 0 = (new, map fst new ++ [seed], zlen new) /\
  winv new (map fst new ++ [seed]) [seed] /\ NoDup (map fst new) /\
  (forall s, In s (map fst new) <-> In s keys /\ joined m s seed).
Proof.
  intros Hs. destruct (arrivals_ok seed (Keys seed Hs)) as (l & El & Nl & Hl).
  destruct (push_untraversed None keys l [] [seed] 0) as [[stack' trav'] count'] eqn:Ep.
  destruct (push_spec _ _ _ _ _ _ _ _ _ Ep) as (new & -> & -> & Ec & Nn & H1 & H2). rewrite app_nil_r in Ep. replace (0 + zlen new) with (zlen new) in Ec by lia. subst count'.
  exists l, new. split; [exact El|]. split; [exact Ep|].
  assert (J : forall s x, In (s, x) new -> In s keys /\ s <> seed /\ joined m s seed).
  { intros s x Hx. destruct (H1 s x Hx) as (K1 & K2 & K3 & _). apply Hl in K1. split; [exact K2|]. split; [intros ->; apply K3; left; reflexivity|]. exists x. tauto. }
  assert (Iff : forall s, In s (map fst new) <-> In s keys /\ joined m s seed).
  { intros s. split.
    - intros K. apply in_map_iff in K. destruct K as ([s' x] & Es & Hx). cbn in Es. subst s'. destruct (J s x Hx) as (K1 & _ & K3). auto.
    - intros [K1 (h & Lh & Sh & Th)]. specialize (H2 s h). assert (K : In s (map fst new ++ [seed])) by (apply H2; [apply Hl; auto|exact K1|intros []]).
      apply in_app_iff in K. destruct K as [K|[<-|[]]]; [exact K|]. exfalso. apply (joined_irrefl seed). exists h. auto. }
  split; [|split; [exact Nn|exact Iff]]. constructor.
  - cbn. constructor; [|exact Nn]. intros K. apply Iff in K. exact (joined_irrefl seed (proj2 K)).
  - intros x. cbn. rewrite in_app_iff. cbn. tauto.
  - intros x Hx. apply in_app_iff in Hx. destruct Hx as [Hx|[<-|[]]]; [apply Iff in Hx; tauto|exact Hs].
  - intros [s x] Hp. destruct (H1 s x Hp) as (K1 & _). apply Hl in K1. destruct K1 as (K1 & K2 & K3). split; [exact K1|]. split; [exact K2|]. exists seed. split; [exact K3|].
    apply in_app_iff. right. left. reflexivity.
  - intros x y [<-|[]] Hy J'. apply in_app_iff. left. apply Iff. auto.
Qed.

Lemma sequence_ok seed : In seed keys -> (exists w, In w keys /\ joined m w seed) ->
  exists acc loop trav, sequence m keys seed = Some (acc, loop, trav) /\ NoDup acc /\ (forall x, In x trav <-> In x acc) /\
    (forall x, In x acc -> In x keys) /\ closed acc /\ In seed acc /\ (2 <= length acc)%nat.
Proof.
  intros Hs (w & Hw & Jw). destruct (start_ok seed Hs) as (l & new & El & Ep & W & Nn & Iff).
  assert (Ne : new <> []). { intros ->. assert (K : In w (map fst (@nil (Z * Z)))) by (apply Iff; auto). destruct K. }
  destruct (walk_ok (S (length keys)) new (map fst new ++ [seed]) [seed] W Ne) as (acc & trav & Ew & Wf & I1 & I2); [cbn; lia|].
  destruct Wf as [A B D E F]. rewrite app_nil_r in A. cbn [map] in B. assert (B' : forall x, In x trav <-> In x acc) by (intros x; rewrite B, app_nil_r; reflexivity).
  assert (Hd : exists first r, acc = first :: r).
  { destruct acc as [|first r]; [destruct (I1 seed (or_introl eq_refl))|eauto]. }
  destruct Hd as (first & r & Ea). assert (Hf : In first keys) by (apply D, B'; rewrite Ea; left; reflexivity).
  destruct (arrivals_ok first (Keys first Hf)) as (lf & Elf & _).
  unfold sequence. rewrite El. cbn [obind]. rewrite Ep. rewrite Ew. cbn [obind].
  assert (L2 : (2 <= length acc)%nat).
  { assert (Kw : In w acc) by (apply I2, Iff; auto). assert (Ks : In seed acc) by (apply I1; left; reflexivity).
    assert (N : w <> seed) by (intros ->; exact (joined_irrefl seed Jw)). subst acc. destruct r as [|y r]; [|cbn; lia]. cbn in Kw, Ks. intuition congruence. }
  assert (Rest : NoDup acc /\ (forall x, In x trav <-> In x acc) /\ (forall x, In x acc -> In x keys) /\ closed acc /\ In seed acc /\ (2 <= length acc)%nat).
  { split; [exact A|]. split; [exact B'|]. split; [intros x Hx; apply D, B'; exact Hx|]. split; [|split; [apply I1; left; reflexivity|exact L2]].
    intros x y Hx Hy J. apply B'. eapply F; eassumption. }
  destruct new as [|p [|q new]]; [congruence| |].
  - exists acc, false, trav. split; [reflexivity|exact Rest].
  - rewrite Ea. unfold seam_degree. rewrite Elf. cbn [obind]. rewrite <- Ea. eexists acc, _, trav. split; [reflexivity|exact Rest].
Qed.

(** ** Paths: at most two neighbours *)

Section Paths.
Hypothesis Deg : forall v, In v keys -> exists nbs, neighbours m keys v nbs /\ (1 <= length nbs <= 2)%nat.

Lemma three v a b d : In v keys -> In a keys -> In b keys -> In d keys -> joined m a v -> joined m b v -> joined m d v -> NoDup [a; b; d] -> False.
Proof.
  intros Hv Ha Hb Hd Ja Jb Jd N. destruct (Deg v Hv) as (nbs & (Nn & H & _) & L).
  assert (I : incl [a; b; d] nbs). { intros x [<-|[<-|[<-|[]]]]; apply H; auto. }
  apply (NoDup_incl_length N) in I. cbn in I. lia.
Qed.

Lemma linked_app (R : Z -> Z -> Prop) l a : linked R (l ++ [a]) <-> linked R l /\ (l = [] \/ exists l' z, l = l' ++ [z] /\ R z a).
Proof.
  induction l as [|x l IH]; [cbn; tauto|]. destruct l as [|y l].
  - cbn. split; [intros [H _]; split; [exact I|]; right; exists [], x; auto|]. intros [_ [K|([|u l'] & z & K & H)]]; [discriminate| |].
    + cbn in K. injection K as ->. auto.
    + cbn in K. injection K as _ K. destruct l'; discriminate.
  - change ((x :: y :: l) ++ [a]) with (x :: (y :: l) ++ [a]). cbn [app] in *. cbn [linked] in *. rewrite IH. split.
    + intros (Hxy & Hl & [K|(l' & z & K & H)]); [discriminate|]. split; [auto|]. right. exists (x :: l'), z. cbn. rewrite <- K. auto.
    + intros ((Hxy & Hl) & [K|(l' & z & K & H)]); [discriminate|]. split; [exact Hxy|]. split; [exact Hl|]. right.
      destruct l' as [|u l']; cbn in K; [discriminate K|]. injection K as -> K. exists l', z. split; assumption.
Qed.
Lemma linked_rev (R : Z -> Z -> Prop) l : (forall a b, R a b -> R b a) -> linked R l -> linked R (rev l).
Proof.
  intros S. induction l as [|x l IH]; [auto|]. intros H. cbn [rev]. apply linked_app. destruct l as [|y l]; [split; [exact I|left; reflexivity]|].
  destruct H as [Hxy H]. split; [apply IH; exact H|]. right. exists (rev l), y. split; [reflexivity|]. apply S. exact Hxy.
Qed.

(** the two shapes of the stack *)
Definition shape1 (stack : list (Z * Z)) (acc : list Z) : Prop := exists y h, stack = [(y, h)] /\ acc <> [] /\ linked (joined m) (acc ++ [y]).
Definition shape2 (stack : list (Z * Z)) (acc : list Z) : Prop := exists y h a h' seed r, stack = [(y, h); (a, h')] /\ acc = seed :: r /\
  linked (joined m) (acc ++ [y]) /\ joined m a seed.

Lemma linked_last (l : list Z) y : l <> [] -> linked (joined m) (l ++ [y]) -> exists l' z, l = l' ++ [z] /\ joined m z y.
Proof. intros N H. apply linked_app in H. destruct H as [_ [K|K]]; [contradiction|exact K]. Qed.

Lemma pushed_few v h rest trav acc l (new : list (Z * Z)) : winv ((v, h) :: rest) trav acc -> acc <> [] -> linked (joined m) (acc ++ [v]) ->
  arrivals m v = Some l -> (forall s x, In (s, x) new -> In s keys /\ ~ In s trav /\ joined m s v) -> NoDup (map fst new) ->
  (length new <= 1)%nat.
Proof.
  intros W Na Ln _ J Nn. destruct (linked_last acc v Na Ln) as (l' & z & Ez & Jz).
  assert (Tz : In z trav) by (apply (w_trav _ _ _ W); rewrite Ez, !in_app_iff; cbn; tauto).
  assert (Tv : In v trav) by (apply (w_trav _ _ _ W); apply in_app_iff; right; left; reflexivity).
  destruct new as [|[a x] [|[b y] r]]; [cbn; lia|cbn; lia|]. exfalso.
  destruct (J a x (or_introl eq_refl)) as (Ka & Ta & Ja). destruct (J b y (or_intror (or_introl eq_refl))) as (Kb & Tb & Jb).
  apply (three v a b z); try assumption; try (apply (w_keys _ _ _ W); assumption).
  inversion Nn as [|? ? N1 N2]. subst. cbn in N1. constructor; [|constructor; [|constructor; [intros []|constructor]]].
  - intros [<-|[<-|[]]]; [apply N1; left; reflexivity|contradiction].
  - intros [<-|[]]. contradiction.
Qed.

Lemma walk_path fuel : forall stack trav acc acc' trav', winv stack trav acc -> shape1 stack acc \/ shape2 stack acc ->
  walk fuel m keys stack trav acc = Some (acc', trav') -> linked (joined m) acc' /\ (shape1 stack acc -> hd 0 acc' = hd 0 acc).
Proof.
  induction fuel as [|fuel IH]; intros stack trav acc acc' trav' W Sh Ew; [discriminate Ew|].
  destruct stack as [|[v h] rest]; [discriminate Ew|]. destruct (walk_step v h rest trav acc W) as (l & new & El & Ep & W' & J & Nn).
  cbn [walk] in Ew. rewrite El in Ew. cbn [obind] in Ew. rewrite Ep in Ew.
  assert (Ln : acc <> [] /\ linked (joined m) (acc ++ [v])).
  { destruct Sh as [(y & g & Es & Na & K)|(y & g & a & g' & seed & r & Es & Ea & K & _)].
    - injection Es as -> -> ->. auto.
    - injection Es as -> -> ->. split; [rewrite Ea; discriminate|exact K]. }
  destruct Ln as [Na Ln]. pose proof (pushed_few v h rest trav acc l new W Na Ln El J Nn) as Few.
  assert (Ext : forall z x, In (z, x) new -> linked (joined m) ((acc ++ [v]) ++ [z])).
  { intros z x Hz. apply linked_app. split; [exact Ln|]. right. exists acc, v. split; [reflexivity|]. apply joined_sym. apply (J z x Hz). }
  destruct Sh as [(y & g & Es & _ & _)|(y & g & a & g' & seed & r & Es & Ea & _ & Ja)].
  - injection Es as -> -> ->. rewrite app_nil_r in *. destruct new as [|[z x] [|q new]]; [| |cbn in Few; lia].
    + cbn in Ew. injection Ew as <- <-. split; [exact Ln|]. intros _. destruct acc; [contradiction|reflexivity].
    + change (zlen [(z, x)] =? 0) with false in Ew. cbn [andb] in Ew.
      assert (Sh' : shape1 [(z, x)] (acc ++ [y])) by (exists z, x; split; [reflexivity|]; split; [destruct acc; discriminate|]; apply (Ext z x); left; reflexivity).
      destruct (IH _ _ _ _ _ W' (or_introl Sh') Ew) as [R1 R2]. split; [exact R1|]. intros _. rewrite (R2 Sh'). destruct acc; [contradiction|reflexivity].
  - assert (Er : rest = [(a, g')]) by congruence. assert (Ev : y = v) by congruence. subst rest. clear Es. split; [|intros (y' & g'' & K & _); discriminate K].
    destruct new as [|[z x] [|q new]]; [| |cbn in Few; lia].
    + cbn [app] in Ew. change (zlen (@nil (Z * Z)) =? 0) with true in Ew. cbn [andb negb] in Ew.
      refine (proj1 (IH _ _ _ _ _ (winv_perm _ _ _ _ (Permutation_rev (acc ++ [v])) W') _ Ew)).
      left. exists a, g'. split; [reflexivity|]. split; [intros K; apply (f_equal (@length Z)) in K; rewrite rev_length, app_length in K; cbn in K; lia|].
      apply linked_app. split; [apply linked_rev; [apply joined_sym|exact Ln]|]. right. subst acc. cbn [app rev]. exists (rev (r ++ [v])), seed. split; [reflexivity|]. apply joined_sym. exact Ja.
    + change (zlen [(z, x)] =? 0) with false in Ew. cbn [app andb] in Ew.
      refine (proj1 (IH _ _ _ _ _ W' _ Ew)).
      right. exists z, x, a, g', seed, (r ++ [v]). split; [reflexivity|]. split; [subst acc; reflexivity|]. split; [apply (Ext z x); left; reflexivity|exact Ja].
Qed.

Lemma same_length {A} (a b : list A) : NoDup a -> NoDup b -> (forall x, In x a <-> In x b) -> length a = length b.
Proof.
  intros Na Nb H. apply Nat.le_antisymm; apply NoDup_incl_length; try assumption; intros x; apply H.
Qed.

Lemma seam_degree_ok v nbs : In v keys -> neighbours m keys v nbs -> seam_degree m keys v = Some (zlen nbs).
Proof.
  intros Hv (Nn & H & U). destruct (arrivals_ok v (Keys v Hv)) as (l & El & Nl & Hl). unfold seam_degree. rewrite El. cbn [obind]. f_equal.
  unfold zlen. f_equal. rewrite <- (map_length fst (filter _ l)). apply same_length; [|exact Nn|].
  - assert (G : forall l', (forall p, In p l' -> In p l) -> NoDup (map snd l') -> NoDup (map fst (filter (fun p : Z * Z => zmem (fst p) keys) l'))).
    { induction l' as [|[s h] r IH]; intros I N; [constructor|]. cbn in N. inversion N as [|? ? N1 N2]. subst. cbn [filter fst].
      assert (Ir : forall p, In p r -> In p l) by (intros p Hp; apply I; right; exact Hp).
      destruct (zmem s keys) eqn:Ek; [|apply IH; assumption]. cbn [map fst]. constructor; [|apply IH; assumption].
      intros K. apply in_map_iff in K. destruct K as ([s' h'] & Es & K). cbn in Es. subst s'. apply filter_In in K. destruct K as [K _].
      pose proof (I _ (or_introl eq_refl)) as P1. pose proof (Ir _ K) as P2. apply Hl in P1. apply Hl in P2. apply zmem_In in Ek.
      destruct P1 as (A1 & A2 & A3). destruct P2 as (B1 & B2 & B3). assert (h = h') by (eapply U; eassumption). subst h'.
      apply N1. change h with (snd (s, h)). apply in_map. exact K. }
    apply G; auto.
  - intros w. rewrite in_map_iff, H. split.
    + intros ([s h] & Es & K). cbn in Es. subst s. apply filter_In in K. destruct K as [K1 K2]. apply zmem_In in K2. apply Hl in K1. split; [exact K2|]. exists h. tauto.
    + intros [Kw (h & Lh & Sh & Th)]. exists (w, h). split; [reflexivity|]. apply filter_In. split; [apply Hl; auto|]. apply zmem_In. exact Kw.
Qed.

Lemma linked_mid (R : Z -> Z -> Prop) l1 x y l2 : linked R (l1 ++ x :: y :: l2) -> R x y.
Proof. induction l1 as [|a l1 IH]; [cbn; tauto|]. destruct l1 as [|b l1]; cbn [app] in *; cbn [linked]; intros [_ H]; auto. Qed.

(** a neighbour of the first vertex of the path that is not the second vertex is the last one *)
Lemma first_last a b l w : NoDup (a :: b :: l) -> (forall x, In x (a :: b :: l) -> In x keys) -> linked (joined m) (a :: b :: l) ->
  In w (a :: b :: l) -> joined m w a -> w <> b -> w = last (a :: b :: l) 0.
Proof.
  intros N I Ln Hw J Nb. assert (Na : w <> a) by (intros ->; exact (joined_irrefl a J)).
  apply in_split in Hw. destruct Hw as (l1 & l2 & E). destruct l2 as [|y l2]; [rewrite E; symmetry; apply last_last|]. exfalso.
  destruct l1 as [|u l1 _] using rev_ind; [cbn in E; congruence|]. rewrite <- app_assoc in E. cbn [app] in E.
  rewrite E in Ln, N, I. assert (Jux : joined m u w) by (eapply linked_mid; exact Ln).
  assert (Jxy : joined m w y). { apply (linked_mid (joined m) (l1 ++ [u]) w y l2). rewrite <- app_assoc. exact Ln. }
  assert (Hin : forall z, In z [u; w; y] -> In z (l1 ++ u :: w :: y :: l2)) by (intros z Hz; apply in_app_iff; right; cbn in *; tauto).
  assert (Nuy : u <> y). { intros <-. apply NoDup_remove_2 in N. apply N. apply in_app_iff. right. right. left. reflexivity. }
  assert (Ina : In a (l1 ++ u :: w :: y :: l2)) by (rewrite <- E; left; reflexivity).
  assert (Nay : a <> y).
  { intros <-. destruct l1 as [|c l1]; cbn in E.
    - injection E as E1 E2 E3. congruence.
    - injection E as E1 E2. subst c. cbn in N. inversion N as [|? ? K _]. apply K. apply in_app_iff. right. cbn. tauto. }
  assert (Nau : a <> u).
  { intros <-. destruct l1 as [|c l1]; cbn in E.
    - injection E as E1 E2. congruence.
    - injection E as E1 E2. subst c. cbn in N. inversion N as [|? ? K _]. apply K. apply in_app_iff. right. left. reflexivity. }
  apply (three w a u y); try (apply I); try (apply Hin; cbn; tauto); try exact Ina.
  - apply joined_sym. exact J.
  - exact Jux.
  - apply joined_sym. exact Jxy.
  - constructor; [|constructor; [|constructor; [intros []|constructor]]]; cbn; intuition congruence.
Qed.

Lemma sequence_path seed acc loop trav : In seed keys -> sequence m keys seed = Some (acc, loop, trav) ->
  linked (joined m) acc /\
  (loop = true -> (3 <= length acc)%nat /\ joined m (last acc 0) (hd 0 acc)) /\
  (loop = false -> (3 <= length acc)%nat -> ~ joined m (last acc 0) (hd 0 acc)).
Proof.
  intros Hs E. destruct (Deg seed Hs) as (nbs & Hn & Ln).
  assert (Ex : exists w, In w keys /\ joined m w seed).
  { destruct nbs as [|w r]; [cbn in Ln; lia|]. destruct Hn as (_ & H & _). exists w. apply H. left. reflexivity. }
  destruct (sequence_ok seed Hs Ex) as (acc' & loop' & trav' & E' & Na & Ht & Hk & Hc & Hsd & L2).
  assert (acc' = acc /\ loop' = loop /\ trav' = trav) as (-> & -> & ->) by (repeat split; congruence). clear E'.
  destruct (start_ok seed Hs) as (l & new & El & Ep & W & Nn & Iff).
  unfold sequence in E. rewrite El in E. cbn [obind] in E. rewrite Ep in E.
  destruct (walk _ m keys new _ [seed]) as [[acc' trav']|] eqn:Ew; [|discriminate E]. cbn [obind] in E.
  assert (Lnew : length new = length nbs).
  { rewrite <- (map_length fst new). apply same_length; [exact Nn|apply Hn|]. intros x. rewrite Iff. symmetry. apply Hn. }
  destruct acc as [|a [|b r]]; [cbn in L2; lia|cbn in L2; lia|].
  assert (Ka : In a keys) by (apply Hk; left; reflexivity). destruct (Deg a Ka) as (na & Ha & La).
  (* one neighbour: the end points are not joined; two: they are *)
  assert (One : linked (joined m) (a :: b :: r) -> length na = 1%nat -> (3 <= length (a :: b :: r))%nat -> ~ joined m (last (a :: b :: r) 0) a).
  { intros Lk L1 L3 J. assert (Lst : In (last (a :: b :: r) 0) (b :: r)).
    { destruct r as [|d r]; [cbn in L3; lia|]. destruct (@exists_last _ (b :: d :: r)) as (l' & z & Ez); [discriminate|].
      change (last (a :: b :: d :: r) 0) with (last (b :: d :: r) 0). rewrite Ez, last_last. apply in_app_iff. right. left. reflexivity. }
    assert (Nb : last (a :: b :: r) 0 <> b).
    { destruct r as [|d r]; [cbn in L3; lia|]. change (last (a :: b :: d :: r) 0) with (last (d :: r) 0). intros Eb.
      inversion Na as [|? ? _ N2]. inversion N2 as [|? ? N3 _]. apply N3. rewrite <- Eb. destruct (@exists_last _ (d :: r)) as (l' & z & Ez); [discriminate|]. rewrite Ez, last_last. apply in_app_iff. right. left. reflexivity. }
    destruct Ha as (Nna & Hna & _). assert (K1 : In b na) by (apply Hna; split; [apply Hk; right; left; reflexivity|apply joined_sym; exact (proj1 Lk)]).
    assert (K2 : In (last (a :: b :: r) 0) na) by (apply Hna; split; [apply Hk; right; exact Lst|exact J]).
    destruct na as [|p [|q na]]; cbn in L1; try lia. destruct K1 as [K1|[]]. destruct K2 as [K2|[]]. congruence. }
  assert (Two : linked (joined m) (a :: b :: r) -> length na = 2%nat -> (3 <= length (a :: b :: r))%nat /\ joined m (last (a :: b :: r) 0) a).
  { intros Lk L1. destruct Ha as (Nna & Hna & _). assert (K1 : In b na) by (apply Hna; split; [apply Hk; right; left; reflexivity|apply joined_sym; exact (proj1 Lk)]).
    assert (Hw : exists w, In w na /\ w <> b).
    { destruct na as [|p [|q [|? ?]]]; cbn in L1; try lia. inversion Nna as [|? ? N1 _]. cbn in K1. destruct K1 as [<-|[<-|[]]].
      - exists q. split; [right; left; reflexivity|]. intros ->. apply N1. left. reflexivity.
      - exists p. split; [left; reflexivity|]. intros ->. apply N1. left. reflexivity. }
    destruct Hw as (w & Hw & Nw). apply Hna in Hw. destruct Hw as [Kw Jw]. assert (Iw : In w (a :: b :: r)) by (eapply Hc; [left; reflexivity|exact Kw|exact Jw]).
    pose proof (first_last a b r w Na Hk Lk Iw Jw Nw) as El'. rewrite <- El'. split; [|exact Jw].
    destruct r as [|d r]; [|cbn; lia]. cbn in El'. contradiction. }
  destruct new as [|p [|q new]].
  - cbn in Lnew. lia.
  - injection E as -> <- ->. destruct p as [y g].
    assert (Sh : shape1 [(y, g)] [seed]).
    { exists y, g. split; [reflexivity|]. split; [discriminate|]. cbn. split; [|exact I]. apply joined_sym. apply (Iff y). left. reflexivity. }
    destruct (walk_path _ _ _ _ _ _ W (or_introl Sh) Ew) as [Lk Hd]. specialize (Hd Sh). cbn in Hd. subst a.
    split; [exact Lk|]. split; [discriminate|]. intros _ L3. apply One; try assumption.
    transitivity (length nbs); [|cbn in Lnew; lia]. apply same_length; [apply Ha|apply Hn|]. intros x. rewrite (proj1 (proj2 Ha)), (proj1 (proj2 Hn)). reflexivity.
  - assert (Sh : shape2 (p :: q :: new) [seed]).
    { destruct new as [|? ?]; [|cbn in Lnew; lia]. destruct p as [y g], q as [d g']. exists y, g, d, g', seed, []. split; [reflexivity|]. split; [reflexivity|].
      split; [cbn; split; [|exact I]; apply joined_sym; apply (Iff y); left; reflexivity|]. apply (Iff d). right. left. reflexivity. }
    destruct acc' as [|a' r']; [discriminate E|]. destruct (seam_degree m keys a') as [n|] eqn:Ed; [|discriminate E]. cbn [obind] in E.
    assert (a' = a /\ r' = b :: r /\ loop = (n =? 2)) as (-> & -> & ->) by (repeat split; congruence).
    destruct (walk_path _ _ _ _ _ _ W (or_intror Sh) Ew) as [Lk _]. rewrite (seam_degree_ok a na Ka Ha) in Ed. assert (n = zlen na) by congruence. subst n.
    split; [exact Lk|]. unfold zlen. split; intros K.
    + apply Z.eqb_eq in K. apply Two; [exact Lk|lia].
    + apply Z.eqb_neq in K. intros L3. apply One; try assumption. lia.
Qed.
End Paths.
End Walk.
End Mesh.
