(** C74: two points that are joined, whatever faces they have in common. *)
From Coq Require Import List Arith Bool Lia Reals.
From Verif Require Import CutModel CutProofs SplitModel SplitSpec SplitProofs PointsSpec JoinModel JoinSpec JoinProofs.
Import ListNotations.
Open Scope nat_scope.

Section two.
Variable rnd : R -> R.
Variable sort : list (nat * R) -> list (nat * R).
Variable position : nat -> vec.
Variable psf : nat -> option nat * option nat.
Variable registry : list (nat * nat).
Variable cnt : nat.
Variable faces_around : nat -> list nat.
Variable inside : nat -> vec -> bool.
Notation on := (lies_on (faces psf) cnt registry).

Lemma told_spec e p q rp rq l : valid registry cnt p -> valid registry cnt q -> registry_faces psf registry cnt p = Some rp -> registry_faces psf registry cnt q = Some rq -> forall m,
  (forall f, ~ In e (get m f) \/ exists l, get m f = l ++ [e] /\ ~ In e l) ->
  let m' := fold_left (fun m f => if is_in f rp && is_in f rq then match lookup m f with Some list => if existsb (Nat.eqb e) list then m else push m f e | None => push m f e end else m) l m in
  forall f, (~ In e (get m' f) \/ exists l, get m' f = l ++ [e] /\ ~ In e l) /\ (In e (get m' f) <-> In e (get m f) \/ In f l /\ on p f /\ on q f) /\ (forall e', e' <> e -> filter (Nat.eqb e') (get m' f) = filter (Nat.eqb e') (get m f)) /\ exists x, get m' f = get m f ++ x /\ (x = [] \/ x = [e]).
Proof.
  intros VP VQ RP RQ. induction l as [|g l IH]; intros m OK m' f.
  - split; [apply OK|]. split; [cbn; tauto|]. split; [reflexivity|]. exists []. split; [symmetry; apply app_nil_r|auto].
  - assert (ON : is_in g rp && is_in g rq = true <-> on p g /\ on q g) by (rewrite andb_true_iff, !is_in_spec, (registry_on position psf registry cnt faces_around inside p rp g VP RP), (registry_on position psf registry cnt faces_around inside q rq g VQ RQ); reflexivity).
    assert (ADD : lookup m g = None \/ (exists k, lookup m g = Some k /\ existsb (Nat.eqb e) k = false) -> ~ In e (get m g)).
    { intros [H | (k & H & X)]; unfold get; rewrite H; [exact (fun x => x)|]. intros Y. apply not_true_iff_false in X. apply X, existsb_exists. exists e. split; [exact Y|apply Nat.eqb_refl]. }
    assert (STEP : exists m1, m' = fold_left (fun m f => if is_in f rp && is_in f rq then match lookup m f with Some list => if existsb (Nat.eqb e) list then m else push m f e | None => push m f e end else m) l m1 /\
       (m1 = m /\ (~ (on p g /\ on q g) \/ In e (get m g)) \/ m1 = push m g e /\ (on p g /\ on q g) /\ ~ In e (get m g))).
    { unfold m'. cbn [fold_left]. eexists. split; [reflexivity|]. destruct (is_in g rp && is_in g rq) eqn:X.
      - assert (OO : on p g /\ on q g) by (apply ON; reflexivity). destruct (lookup m g) as [k|] eqn:L; [|right; split; [reflexivity|]; split; [exact OO|apply ADD; auto]]. destruct (existsb (Nat.eqb e) k) eqn:Y.
        + left. split; [reflexivity|]. right. apply existsb_exists in Y. destruct Y as (y & Y1 & Y2). apply Nat.eqb_eq in Y2. subst y. unfold get. rewrite L. exact Y1.
        + right. split; [reflexivity|]. split; [exact OO|]. apply ADD. right. exists k. auto.
      - left. split; [reflexivity|]. left. intros OO. apply ON in OO. discriminate. }
    destruct STEP as (m1 & E & S). destruct S as [(-> & S) | (-> & OO & NI)].
    + destruct (IH m OK f) as (A & B & C & x & D). rewrite E. split; [exact A|]. split; [|split; [exact C|exists x; exact D]]. rewrite B. cbn [In]. split; [tauto|]. intros [H | ([<- | H] & H2)]; [auto| |auto]. destruct S as [S | S]; [contradiction|auto].
    + assert (OK1 : forall f, ~ In e (get (push m g e) f) \/ exists l, get (push m g e) f = l ++ [e] /\ ~ In e l).
      { intros f'. rewrite push_get. destruct (Nat.eqb_spec f' g) as [-> | D]; [right; exists (get m g); auto|]. rewrite app_nil_r. apply OK. }
      destruct (IH (push m g e) OK1 f) as (A & B & C & x & D1 & D2). rewrite E. split; [exact A|]. rewrite push_get in B, C, D1. destruct (Nat.eqb_spec f g) as [-> | D].
      * assert (IE : In e (get (fold_left (fun (m : list (nat * list nat)) (f : nat) => if is_in f rp && is_in f rq then match lookup m f with Some list => if existsb (Nat.eqb e) list then m else push m f e | None => push m f e end else m) l (push m g e)) g)) by (apply B; left; apply in_or_app; right; left; reflexivity).
        split; [split; [intros _; right; split; [left; reflexivity|exact OO]|intros _; exact IE]|]. split; [intros e' NE; rewrite (C e' NE), filter_app; cbn; destruct (Nat.eqb_spec e' e); [congruence|apply app_nil_r]|].
        exists [e]. split; [|auto]. destruct D2 as [-> | ->]; [rewrite D1, app_nil_r; reflexivity|]. exfalso. destruct A as [A | (k & A & NA)]; [contradiction|]. rewrite D1 in A. apply app_inj_tail in A. destruct A as [A _]. apply NA. rewrite <- A. apply in_or_app. right. left. reflexivity.
      * rewrite app_nil_r in *. split; [rewrite B; cbn [In]; split; [tauto|]; intros [H | ([<- | H] & H2)]; [auto|contradiction|auto]|]. split; [exact C|]. exists x. auto.
Qed.

(** Two points of two faces g and h that have no edge yet get one; it is put into the lists of g, of h, and of every neighbour of g or h on which both points are - once, at the end - and of no other face. *)
Theorem C74_neighbours g h p q s : g <> h -> valid registry cnt p -> valid registry cnt q -> edge_exists (edges s) p q = false -> (forall f e, In e (get (iface s) f) -> e < length (edges s)) ->
  exists s', join_entry rnd sort position psf registry cnt faces_around inside s ((g, h), [p; q]) = Some s' /\ edges s' = edges s ++ [(p, q)] /\
    forall f, ((f = g \/ f = h \/ (In f (faces_around g) \/ In f (faces_around h)) /\ on p f /\ on q f) /\ get (iface s') f = get (iface s) f ++ [length (edges s)]) \/
              (~ (f = g \/ f = h \/ (In f (faces_around g) \/ In f (faces_around h)) /\ on p f /\ on q f) /\ get (iface s') f = get (iface s) f).
Proof.
  intros GH VP VQ EX FR. unfold join_entry. cbn [snd fst]. unfold join_two. rewrite EX. destruct (valid_entry psf registry cnt p VP) as (e1 & f1 & _ & E1). destruct (valid_entry psf registry cnt q VQ) as (e2 & f2 & _ & E2). unfold update_neighbours. rewrite E1, E2. cbn [bind].
  eexists. split; [reflexivity|]. split; [reflexivity|]. set (e := length (edges s)). set (m := push (push (iface s) g e) h e).
  assert (NE : forall f, ~ In e (get (iface s) f)) by (intros f X; apply FR in X; unfold e in X; lia).
  assert (GM : forall f, get m f = get (iface s) f ++ (if Nat.eqb f g || Nat.eqb f h then [e] else [])).
  { intros f. unfold m. rewrite !push_get, <- app_assoc. apply f_equal. destruct (Nat.eqb_spec f g) as [E0 | D], (Nat.eqb_spec f h) as [E3 | D3]; cbn; try reflexivity. congruence. }
  assert (OK : forall f, ~ In e (get m f) \/ exists l, get m f = l ++ [e] /\ ~ In e l) by (intros f; rewrite GM; destruct (_ || _); [right; exists (get (iface s) f); auto|left; rewrite app_nil_r; apply NE]).
  intros f. cbn [iface]. destruct (told_spec e p q _ _ (faces_around g ++ faces_around h) VP VQ E1 E2 m OK f) as (A & B & _ & x & D1 & D2). fold m in D1, B, A |- *. rewrite GM in D1, B.
  destruct (Nat.eqb f g || Nat.eqb f h) eqn:Y.
  - left. assert (FG : f = g \/ f = h) by (apply orb_true_iff in Y; destruct Y as [Y | Y]; apply Nat.eqb_eq in Y; auto). split; [tauto|]. fold m. rewrite D1. destruct D2 as [-> | ->]; [apply app_nil_r|]. exfalso. destruct A as [A | (k & A & NA)]; [apply A; rewrite D1; apply in_or_app; right; left; reflexivity|]. rewrite D1 in A. apply app_inj_tail in A. destruct A as [A _]. apply NA. rewrite <- A. apply in_or_app. right. left. reflexivity.
  - assert (FG : ~ (f = g \/ f = h)) by (apply orb_false_iff in Y; destruct Y as [Y1 Y2]; apply Nat.eqb_neq in Y1, Y2; tauto). rewrite app_nil_r in D1, B. rewrite in_app_iff in B. fold m. rewrite D1. destruct D2 as [-> | ->].
    + right. rewrite app_nil_r in *. split; [|reflexivity]. intros [H | [H | H]]; [tauto|tauto|]. apply (NE f). rewrite <- D1. apply B. right. exact H.
    + left. split; [|reflexivity]. right. right. assert (IE : In e (get (iface s) f ++ [e])) by (apply in_or_app; right; left; reflexivity). rewrite <- D1 in IE. apply B in IE. destruct IE as [IE | IE]; [exfalso; exact (NE f IE)|exact IE].
Qed.
End two.

(** The crossing 7 of edge 0 and face 4 and the crossing 8 of edge 1 and face 4; both edges are between the faces 2 and 3, and 5 is another neighbour of 4. *)
Theorem C74_neighbours_case : let psf := fun e : nat => (Some 2, Some 3) in let reg := [(0, 4); (1, 4)] in
  forall rnd sort position inside around, around 2 = [3] -> around 4 = [5] ->
  2 <> 4 /\ valid reg 7 7 /\ valid reg 7 8 /\ edge_exists [] 7 8 = false /\
  exists s', join_entry rnd sort position psf reg 7 around inside {| edges := []; iface := []; incoming := []; along := []; same := [] |} ((2, 4), [7; 8]) = Some s' /\ map (get (iface s')) [2; 3; 4; 5] = [[0]; [0]; [0]; []].
Proof.
  intros psf reg rnd sort position inside around A2 A4. split; [discriminate|]. split; [unfold valid; cbn; lia|]. split; [unfold valid; cbn; lia|]. split; [reflexivity|].
  unfold join_entry. cbn [snd fst]. unfold join_two, update_neighbours. cbn [edges edge_exists existsb length]. rewrite A2, A4. eexists. split; reflexivity.
Qed.
