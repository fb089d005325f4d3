(** C76: the parts of one section. *)
From Coq Require Import List Arith Lia Bool.
From Verif Require Import ShareModel.
Import ListNotations.

Lemma upd_eq {A} (f : nat -> A) k a : upd f k a k = a.
Proof. unfold upd. rewrite Nat.eqb_refl. reflexivity. Qed.
Lemma upd_neq {A} (f : nat -> A) k a x : x <> k -> upd f k a x = f x.
Proof. intros N. unfold upd. destruct (Nat.eqb_spec x k); [contradiction|reflexivity]. Qed.
Lemma upd_cases {A} (f : nat -> A) k a x : x = k /\ upd f k a x = a \/ x <> k /\ upd f k a x = f x.
Proof. unfold upd. destruct (Nat.eqb_spec x k); auto. Qed.

Fixpoint arrives (l : list op) : nat := match l with [] => 0 | Arrive :: l => S (arrives l) | _ :: l => arrives l end.
Lemma arrives_meets j : arrives (meets j) = j.
Proof. induction j as [|j IH]; [reflexivity|]. cbn. rewrite IH. reflexivity. Qed.
Definition arr (b : nat) (p : pstate) : nat := match p with Later | Queued => 0 | Running r => b - arrives (ops r) | Over => b end.
Fixpoint total (b : nat) (p : nat -> pstate) (N : nat) : nat := match N with 0 => 0 | S N => total b p N + arr b (p N) end.

Lemma total_same b p q N : (forall i, i < N -> arr b (p i) = arr b (q i)) -> total b p N = total b q N.
Proof. intros H. induction N as [|N IH]; [reflexivity|]. cbn. rewrite IH by (intros; apply H; lia). rewrite H by lia. reflexivity. Qed.
Lemma total_upd b p i a N : i < N -> total b (upd p i a) N + arr b (p i) = total b p N + arr b a.
Proof.
  induction N as [|N IH]; intros L; [lia|]. cbn. destruct (Nat.eq_dec i N) as [E|E].
  - subst N. rewrite upd_eq. rewrite (total_same b (upd p i a) p) by (intros j J; rewrite upd_neq by lia; reflexivity). lia.
  - rewrite upd_neq by lia. specialize (IH ltac:(lia)). lia.
Qed.
Lemma total_bound b p N g : (forall i, i < N -> arr b (p i) <= g) -> total b p N <= g * N.
Proof. intros H. induction N as [|N IH]; [cbn; lia|]. cbn [total]. specialize (IH ltac:(intros; apply H; lia)). specialize (H N ltac:(lia)). lia. Qed.
Lemma total_low b p N g : (forall i, i < N -> g <= arr b (p i)) -> g * N <= total b p N.
Proof. intros H. induction N as [|N IH]; [cbn; lia|]. cbn [total]. specialize (IH ltac:(intros; apply H; lia)). specialize (H N ltac:(lia)). lia. Qed.
Lemma total_full b p N g : (forall i, i < N -> arr b (p i) <= g) -> g * N <= total b p N -> forall i, i < N -> g <= arr b (p i).
Proof.
  induction N as [|N IH]; intros H T i L; [lia|]. cbn [total] in T. pose proof (total_bound b p N g ltac:(intros; apply H; lia)) as B. pose proof (H N ltac:(lia)) as HN.
  destruct (Nat.eq_dec i N) as [E|E]; [subst i; lia|]. apply IH; [intros; apply H; lia|lia|lia].
Qed.

Definition legal (k : kind) (n i : nat) (r : runner) (h : shared) : Prop :=
  match k with
  | Loop => ops r = [Work] \/ ops r = []
  | Sum => ops r = part Sum n i \/ ops r = tl (part Sum n i) \/
      (i = 0 \/ In (i - 1) (given h)) /\ ops r = (if Nat.ltb i n then [Give i] else []) ++ [Work] \/
      (i = 0 \/ In (i - 1) (given h)) /\ (i < n -> In i (given h)) /\ (ops r = [Work] \/ ops r = [])
  | Meet b => exists j, j <= b /\ ((ops r = Work :: meets j \/ ops r = meets j) /\ b - j <= generation h \/ ops r = Cross :: Work :: meets j /\ mine r + 1 + j = b /\ mine r <= generation h)
  end.

Record sound (k : kind) (n : nat) (h : shared) (p : nat -> pstate) : Prop := {
  s_legal : forall i r, i <= n -> p i = Running r -> legal k n i r h;
  s_sum : k = Sum -> (forall i, In i (given h) -> i < n /\ (p i <> Later /\ p i <> Queued) /\ (i = 0 \/ In (i - 1) (given h))) /\
    (forall i, i <= n -> p i = Over -> (i < n -> In i (given h)) /\ (i = 0 \/ In (i - 1) (given h)));
  s_meet : forall b, k = Meet b -> 1 <= spaces h <= S n /\ total b p (S n) = generation h * S n + (S n - spaces h) /\
    (forall i, i <= n -> generation h <= arr b (p i)) /\ forall i, i <= n -> p i = Over -> b <= generation h
}.

Lemma sound_fresh k n (p : nat -> pstate) : (forall i, p i = Later) -> sound k n (fresh n) p.
Proof.
  intros L. constructor.
  - intros i r _ E. rewrite L in E. discriminate.
  - intros _. split; [intros i []|]. intros i _ E. rewrite L in E. discriminate.
  - intros b _. cbn [spaces generation fresh]. split; [lia|]. split; [|split; [intros; lia|intros i _ E; rewrite L in E; discriminate]].
    rewrite (total_same b p (fun _ => Later)) by (intros i _; rewrite L; reflexivity). replace (0 * S n + (S n - S n)) with 0 by lia. generalize (S n) as N. intros N. induction N as [|N IH]; [reflexivity|]. cbn. rewrite IH. reflexivity.
Qed.

Lemma sound_queue k n h p i : sound k n h p -> p i = Later -> sound k n h (upd p i Queued).
Proof.
  intros [SL SS SM] E. constructor.
  - intros j r J X. destruct (upd_cases p i Queued j) as [[-> Y]|[N Y]]; rewrite Y in X; [discriminate|apply SL; assumption].
  - intros K. destruct (SS K) as [S1 S2]. split.
    + intros j J. destruct (S1 j J) as (A & (B & C) & D). split; [exact A|]. split; [|exact D]. destruct (upd_cases p i Queued j) as [[-> Y]|[N Y]]; rewrite Y; [contradiction|auto].
    + intros j J X. destruct (upd_cases p i Queued j) as [[-> Y]|[N Y]]; rewrite Y in X; [discriminate|auto].
  - intros b K. destruct (SM b K) as (M1 & M2 & M3 & M4). split; [exact M1|]. split; [|split].
    + rewrite <- M2. apply total_same. intros j J. destruct (upd_cases p i Queued j) as [[-> Y]|[N Y]]; rewrite Y; [rewrite E|]; reflexivity.
    + intros j J. specialize (M3 j J). destruct (upd_cases p i Queued j) as [[-> Y]|[N Y]]; rewrite Y; [rewrite E in M3; exact M3|exact M3].
    + intros j J X. destruct (upd_cases p i Queued j) as [[-> Y]|[N Y]]; rewrite Y in X; [discriminate|]. exact (M4 j J X).
Qed.

Lemma sound_run k n h p i : sound k n h p -> p i = Queued \/ p i = Later -> sound k n h (upd p i (Running {| ops := part k n i; mine := 0 |})).
Proof.
  intros [SL SS SM] E. set (r0 := {| ops := part k n i; mine := 0 |}). constructor.
  - intros j r J X. destruct (upd_cases p i (Running r0) j) as [[-> Y]|[N Y]]; rewrite Y in X; [|apply SL; assumption]. injection X as <-. unfold r0, legal. cbn [ops]. destruct k as [| |b]; [auto|auto|].
    exists b. split; [lia|]. left. split; [left; reflexivity|]. rewrite Nat.sub_diag. lia.
  - intros K. destruct (SS K) as [S1 S2]. split.
    + intros j J. destruct (S1 j J) as (A & (B & C) & D). split; [exact A|]. split; [|exact D]. destruct (upd_cases p i (Running r0) j) as [[-> Y]|[N Y]]; rewrite Y; [split; discriminate|auto].
    + intros j J X. destruct (upd_cases p i (Running r0) j) as [[-> Y]|[N Y]]; rewrite Y in X; [discriminate|auto].
  - intros b K. destruct (SM b K) as (M1 & M2 & M3 & M4). assert (A0 : arr b (Running r0) = arr b (p i)).
    { unfold r0. rewrite K. cbn. rewrite arrives_meets, Nat.sub_diag. destruct E as [E|E]; rewrite E; reflexivity. }
    split; [exact M1|]. split; [|split].
    + rewrite <- M2. apply total_same. intros j J. destruct (upd_cases p i (Running r0) j) as [[-> Y]|[N Y]]; rewrite Y; [exact A0|reflexivity].
    + intros j J. specialize (M3 j J). destruct (upd_cases p i (Running r0) j) as [[-> Y]|[N Y]]; rewrite Y; [rewrite A0; exact M3|exact M3].
    + intros j J X. destruct (upd_cases p i (Running r0) j) as [[-> Y]|[N Y]]; rewrite Y in X; [discriminate|]. exact (M4 j J X).
Qed.

Lemma legal_end k n i r h : legal k n i r h -> ops r = [] ->
  match k with Loop => True | Sum => (i = 0 \/ In (i - 1) (given h)) /\ (i < n -> In i (given h)) | Meet b => b <= generation h end.
Proof.
  intros L E. destruct k as [| |b]; [trivial| |]; cbn [legal part tl app] in L.
  - destruct L as [L|[L|[[_ L]|(A & B & L)]]]; rewrite E in L; [discriminate| | |auto].
    + revert L; destruct (Nat.eqb i 0), (Nat.ltb i n); intros L; discriminate L.
    + revert L; destruct (Nat.ltb i n); intros L; discriminate L.
  - destruct L as (j & J & [[[L|L] G]|(L & _)]); rewrite E in L; [discriminate| |discriminate]. destruct j; [lia|discriminate].
Qed.

Lemma sound_over k n h p i r : sound k n h p -> i <= n -> p i = Running r -> ops r = [] -> sound k n h (upd p i Over).
Proof.
  intros [SL SS SM] I E O. pose proof (legal_end k n i r h (SL i r I E) O) as LE. constructor.
  - intros j r' J X. destruct (upd_cases p i Over j) as [[-> Y]|[N Y]]; rewrite Y in X; [discriminate|apply SL; assumption].
  - intros K. destruct (SS K) as [S1 S2]. split.
    + intros j J. destruct (S1 j J) as (A & (B & C) & D). split; [exact A|]. split; [|exact D]. destruct (upd_cases p i Over j) as [[-> Y]|[N Y]]; rewrite Y; [split; discriminate|auto].
    + intros j J X. destruct (upd_cases p i Over j) as [[-> Y]|[N Y]]; rewrite Y in X; [|auto]. subst k. destruct LE; auto.
  - intros b K. subst k. destruct (SM b eq_refl) as (M1 & M2 & M3 & M4). assert (A0 : arr b Over = arr b (p i)) by (rewrite E; cbn; rewrite O; cbn; lia).
    split; [exact M1|]. split; [|split].
    + rewrite <- M2. apply total_same. intros j J. destruct (upd_cases p i Over j) as [[-> Y]|[N Y]]; rewrite Y; [exact A0|reflexivity].
    + intros j J. specialize (M3 j J). destruct (upd_cases p i Over j) as [[-> Y]|[N Y]]; rewrite Y; [rewrite A0; exact M3|exact M3].
    + intros j J X. exact LE || (destruct (upd_cases p i Over j) as [[-> Y]|[N Y]]; rewrite Y in X; [exact LE|exact (M4 j J X)]).
Qed.

Lemma legal_mono k n i r h h' : legal k n i r h -> (forall x, In x (given h) -> In x (given h')) -> generation h <= generation h' -> legal k n i r h'.
Proof.
  intros L G1 G2. destruct k as [| |b]; cbn in *; [exact L| |].
  - destruct L as [L|[L|[[[A|A] L]|([A|A] & B & L)]]]; auto 10.
  - destruct L as (j & J & [[L G]|(L & A & B)]); exists j; (split; [exact J|]); [left; split; [exact L|lia]|right; repeat (split; [assumption|]); lia].
Qed.

Lemma legal_arr b n i r h : legal (Meet b) n i r h -> b - arrives (ops r) <= S (generation h).
Proof.
  intros (j & J & [[[L|L] G]|(L & A & B)]); rewrite L; cbn; rewrite arrives_meets; lia.
Qed.

Lemma sound_exec k n h p i r r' h' : sound k n h p -> i <= n -> p i = Running r -> exec n r h = Some (r', h') -> sound k n h' (upd p i (Running r')).
Proof.
  intros S I E X. destruct S as [SL SS SM]. pose proof (SL i r I E) as L. unfold exec in X.
  assert (SAME : forall q : runner, legal k n i q h -> (forall b, k = Meet b -> b - arrives (ops q) = b - arrives (ops r)) -> sound k n h (upd p i (Running q))).
  { intros q LQ A. constructor.
    - intros j x J Y. destruct (upd_cases p i (Running q) j) as [[-> Z]|[N Z]]; rewrite Z in Y; [injection Y as <-; exact LQ|apply SL; assumption].
    - intros K. destruct (SS K) as [S1 S2]. split.
      + intros j J. destruct (S1 j J) as (A1 & (B & C) & D). split; [exact A1|]. split; [|exact D]. destruct (upd_cases p i (Running q) j) as [[-> Y]|[N Y]]; rewrite Y; [split; discriminate|auto].
      + intros j J Y. destruct (upd_cases p i (Running q) j) as [[-> Z]|[N Z]]; rewrite Z in Y; [discriminate|auto].
    - intros b K. destruct (SM b K) as (M1 & M2 & M3 & M4). assert (A0 : arr b (Running q) = arr b (p i)) by (rewrite E; cbn; apply A, K). split; [exact M1|]. split; [|split].
      + rewrite <- M2. apply total_same. intros j J. destruct (upd_cases p i (Running q) j) as [[-> Y]|[N Y]]; rewrite Y; [exact A0|reflexivity].
      + intros j J. specialize (M3 j J). destruct (upd_cases p i (Running q) j) as [[-> Y]|[N Y]]; rewrite Y; [rewrite A0; exact M3|exact M3].
      + intros j J Y. destruct (upd_cases p i (Running q) j) as [[-> Z]|[N Z]]; rewrite Z in Y; [discriminate|]. exact (M4 j J Y). }
  destruct (ops r) as [|[|x|x| |] l] eqn:O; [discriminate| | | | |].
  - injection X as <- <-. apply SAME; [|intros b K; cbn; reflexivity]. destruct k as [| |b]; cbn [legal part tl app ops mine] in *.
    + destruct L as [L|L]; rewrite O in L; [injection L as L; subst l; auto|discriminate].
    + destruct L as [L|[L|[[A L]|(A & B & [L|L])]]]; rewrite O in L.
      * injection L as L. subst l. auto.
      * revert L; destruct (Nat.eqb_spec i 0) as [I0|I0]; intros L; [|discriminate]. revert L; destruct (Nat.ltb_spec i n) as [IN|IN]; intros L; [discriminate|]. injection L as L. subst l. right; right; right. split; [auto|]. split; [lia|auto].
      * revert L; destruct (Nat.ltb_spec i n) as [IN|IN]; intros L; [discriminate|]. injection L as L. subst l. right; right; right. split; [exact A|]. split; [lia|auto].
      * injection L as L. subst l. auto 10.
      * discriminate.
    + destruct L as (j & J & [[[L|L] G]|(L & A & B)]); rewrite O in L; [|destruct j; discriminate|discriminate]. injection L as L. subst l. exists j. auto.
  - destruct (existsb (Nat.eqb x) (given h)) eqn:EX; [|discriminate]. injection X as <- <-. apply existsb_exists in EX. destruct EX as (y & Y & EY). apply Nat.eqb_eq in EY. subst y. apply SAME; [|intros b K; cbn; reflexivity]. destruct k as [| |b]; cbn [legal part tl app ops mine] in *.
    + destruct L as [L|L]; rewrite O in L; discriminate.
    + destruct L as [L|[L|[[A L]|(A & B & [L|L])]]]; rewrite O in L; try discriminate.
      * revert L; destruct (Nat.eqb_spec i 0) as [I0|I0]; intros L; [revert L; destruct (Nat.ltb i n); intros L; discriminate L|]. injection L as L1 L2. subst x l. auto 10.
      * revert L; destruct (Nat.ltb i n); intros L; discriminate L.
    + destruct L as (j & J & [[[L|L] G]|(L & A & B)]); rewrite O in L; [discriminate|destruct j; discriminate|discriminate].
  - injection X as <- <-. destruct k as [| |b]; cbn [legal part tl app] in L.
    + destruct L as [L|L]; rewrite O in L; discriminate.
    + assert (F : x = i /\ l = [Work] /\ i < n /\ (i = 0 \/ In (i - 1) (given h))).
      { destruct L as [L|[L|[[A L]|(A & B & [L|L])]]]; rewrite O in L; try discriminate.
        - revert L; destruct (Nat.eqb_spec i 0) as [I0|I0]; intros L; [|discriminate]. revert L; destruct (Nat.ltb_spec i n) as [IN|IN]; intros L; [|discriminate]. injection L as -> ->. auto.
        - revert L; destruct (Nat.ltb_spec i n) as [IN|IN]; intros L; [|discriminate]. injection L as -> ->. auto. }
      destruct F as (-> & -> & IN & A). destruct (SS eq_refl) as [S1 S2]. constructor.
      * intros j q J Y. destruct (upd_cases p i (Running {| ops := [Work]; mine := mine r |}) j) as [[-> Z]|[N Z]]; rewrite Z in Y.
        -- injection Y as <-. right; right; right. cbn. split; [destruct A; auto|]. auto.
        -- eapply legal_mono; [apply SL; eassumption|cbn; auto|cbn; lia].
      * intros _. split.
        -- intros j [<-|J]; cbn [given].
           ++ split; [exact IN|]. rewrite upd_eq. split; [split; discriminate|]. destruct A; cbn; auto.
           ++ destruct (S1 j J) as (A1 & (B & C) & D). split; [exact A1|]. split; [|destruct D; cbn; auto]. destruct (upd_cases p i (Running {| ops := [Work]; mine := mine r |}) j) as [[-> Y]|[N Y]]; rewrite Y; [split; discriminate|auto].
        -- intros j J Y. destruct (upd_cases p i (Running {| ops := [Work]; mine := mine r |}) j) as [[-> Z]|[N Z]]; rewrite Z in Y; [discriminate|]. destruct (S2 j J Y) as [Q1 Q2]. cbn. split; [auto|destruct Q2; auto].
      * intros b K. discriminate.
    + destruct L as (j & J & [[[L|L] G]|(L & A & B)]); rewrite O in L; [discriminate|destruct j; discriminate|discriminate].
  - destruct k as [| |b]; cbn [legal part tl app] in L.
    + destruct L as [L|L]; rewrite O in L; discriminate.
    + exfalso. destruct L as [L|[L|[[A L]|(A & B & [L|L])]]]; rewrite O in L; try discriminate;  (revert L; destruct (Nat.eqb i 0), (Nat.ltb i n); intros L; discriminate L).
    + destruct L as (j & J & [[[L|L] G]|(L & A & B)]); rewrite O in L; [discriminate| |discriminate]. destruct j as [|j]; [discriminate|]. injection L as L. subst l.
      destruct (SM b eq_refl) as (M1 & M2 & M3 & M4). pose proof (M3 i I) as GI. rewrite E in GI. cbn in GI. rewrite O in GI. cbn in GI. rewrite arrives_meets in GI.
      set (q := {| ops := Cross :: Work :: meets j; mine := generation h |}) in X. injection X as <- EH.
      assert (AQ : arr b (Running q) = S (arr b (p i))) by (rewrite E; cbn; rewrite O; cbn; rewrite arrives_meets; lia).
      assert (AI : arr b (p i) = generation h) by (rewrite E; cbn; rewrite O; cbn; rewrite arrives_meets; lia).
      pose proof (total_upd b p i (Running q) (S n) ltac:(lia)) as TU.
      assert (GH : generation h <= generation h' /\ given h' = given h) by (subst h'; destruct (Nat.eqb (spaces h) 1); cbn; auto). destruct GH as [GH GV].
      assert (LEG : forall x s, x <= n -> upd p i (Running q) x = Running s -> legal (Meet b) n x s h').
      { intros x s XN Y. destruct (upd_cases p i (Running q) x) as [[-> Z]|[N Z]]; rewrite Z in Y; [|eapply legal_mono; [apply SL; eassumption|rewrite GV; auto|exact GH]].
        injection Y as <-. exists j. split; [lia|]. right. cbn [ops mine q]. split; [reflexivity|]. split; [lia|exact GH]. }
      assert (OV : forall x, x <= n -> upd p i (Running q) x = Over -> b <= generation h).
      { intros x XN Y. destruct (upd_cases p i (Running q) x) as [[-> Z]|[N Z]]; rewrite Z in Y; [discriminate|]. exact (M4 x XN Y). }
      constructor; [exact LEG|discriminate|]. intros b' K. injection K as <-. destruct (Nat.eqb_spec (spaces h) 1) as [SP|SP]; subst h'; cbn [spaces generation] in *.
      * split; [lia|]. assert (TT : total b (upd p i (Running q)) (S n) = S (generation h) * S n + (S n - S n)) by lia. split; [exact TT|]. split.
        -- intros x XN. apply (total_full b (upd p i (Running q)) (S n)); [|lia|lia]. intros y YN. destruct (upd_cases p i (Running q) y) as [[-> Z]|[N Z]]; rewrite Z; [lia|].
           destruct (p y) as [| |s|] eqn:PY; [cbn; lia|cbn; lia|cbn; apply (legal_arr b n y s h), SL; [lia|exact PY]|]. cbn. pose proof (M4 y ltac:(lia) PY). lia.
        -- intros x XN Y. pose proof (OV x XN Y). lia.
      * split; [lia|]. split; [lia|]. split; [|exact OV]. intros x XN. destruct (upd_cases p i (Running q) x) as [[-> Z]|[N Z]]; rewrite Z; [lia|apply M3, XN].
  - destruct (Nat.eqb_spec (generation h) (mine r)) as [GE|GE]; [discriminate|]. injection X as <- <-. destruct k as [| |b]; cbn [legal part tl app] in L.
    + destruct L as [L|L]; rewrite O in L; discriminate.
    + exfalso. destruct L as [L|[L|[[A L]|(A & B & [L|L])]]]; rewrite O in L; try discriminate;  (revert L; destruct (Nat.eqb i 0), (Nat.ltb i n); intros L; discriminate L).
    + destruct L as (j & J & [[[L|L] G]|(L & A & B)]); rewrite O in L; [discriminate|destruct j; discriminate|]. injection L as L. subst l.
      apply SAME; [|intros b' K; reflexivity]. exists j. split; [exact J|]. left. split; [left; reflexivity|]. lia.
Qed.

(** ** A section whose parts all wait or are over *)
(** A part that has to wait. *)
Lemma blocked k n i r h : legal k n i r h -> ops r <> [] -> exec n r h = None ->
  match k with
  | Loop => False
  | Sum => 1 <= i /\ ~ In (i - 1) (given h)
  | Meet b => exists j, ops r = Cross :: Work :: meets j /\ mine r + 1 + j = b /\ mine r = generation h
  end.
Proof.
  intros L NE X. unfold exec in X. destruct k as [| |b]; cbn [legal part tl app] in L.
  - destruct L as [L|L]; rewrite L in X, NE; [discriminate|contradiction].
  - assert (TK : ops r = Take (i - 1) :: (if Nat.ltb i n then [Give i] else []) ++ [Work] -> 1 <= i -> 1 <= i /\ ~ In (i - 1) (given h)).
    { intros E I1. rewrite E in X. destruct (existsb (Nat.eqb (i - 1)) (given h)) eqn:EX; [discriminate|]. split; [exact I1|]. intros Y. assert (Z : existsb (Nat.eqb (i - 1)) (given h) = true) by (apply existsb_exists; exists (i - 1); split; [exact Y|apply Nat.eqb_refl]). congruence. }
    destruct L as [L|[L|[[A L]|(A & B & [L|L])]]]; try (rewrite L in X, NE; (discriminate || contradiction)).
    + revert L; destruct (Nat.eqb_spec i 0) as [I0|I0]; intros L; [rewrite L in X; revert X; destruct (Nat.ltb i n); intros X; discriminate X|]. apply TK; [exact L|lia].
    + rewrite L in X. revert X; destruct (Nat.ltb i n); intros X; discriminate X.
  - destruct L as (j & J & [[[L|L] G]|(L & A & B)]).
    + rewrite L in X. discriminate.
    + rewrite L in X, NE. destruct j; [contradiction|discriminate].
    + exists j. split; [exact L|]. split; [exact A|]. rewrite L in X. destruct (Nat.eqb_spec (generation h) (mine r)) as [GE|GE]; [auto|discriminate].
Qed.

(** Not all parts of a meeting can be waiting, some of them over. *)
Lemma not_all_wait b n h p : sound (Meet b) n h p -> (forall i, i <= n -> p i = Over \/ exists r, p i = Running r /\ ops r <> [] /\ exec n r h = None) -> forall i, i <= n -> p i = Over.
Proof.
  intros S H i I. destruct S as [SL _ SM]. destruct (SM b eq_refl) as (M1 & M2 & M3 & M4). destruct (H i I) as [O|(r & E & NE & X)]; [exact O|]. exfalso.
  destruct (blocked _ _ _ _ _ (SL i r I E) NE X) as (j & _ & A & G).
  assert (ALL : forall x, x < S n -> S (generation h) <= arr b (p x)).
  { intros x XN. destruct (H x ltac:(lia)) as [O|(r' & E' & NE' & X')]; [pose proof (M4 x ltac:(lia) O); lia|]. destruct (blocked _ _ _ _ _ (SL x r' ltac:(lia) E') NE' X') as (j' & O' & A' & G'). rewrite E'. cbn. rewrite O'. cbn. rewrite arrives_meets. lia. }
  pose proof (total_low b p (S n) _ ALL). lia.
Qed.

(** Once the last end value is there, all are. *)
Lemma all_given n h p : sound Sum n h p -> forall i, In i (given h) -> forall j, j <= i -> In j (given h).
Proof.
  intros [_ SS _] i. destruct (SS eq_refl) as [S1 _]. induction i as [|i IH]; intros I j J; [replace j with 0 by lia; exact I|].
  destruct (Nat.eq_dec j (S i)) as [->|N]; [exact I|]. destruct (S1 _ I) as (_ & _ & [D|D]); [lia|]. replace (S i - 1) with i in D by lia. apply IH; [exact D|lia].
Qed.
