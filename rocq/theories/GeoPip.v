(** Point in polygon: proofs. *)
From Coq Require Import List Reals Lra Lia Bool Ascii.
From Verif Require Import GeoModel GeoSpec GeoSeg.
Import ListNotations.
Open Scope R_scope.

(** ** sums modulo two over the edges *)
Fixpoint xsum (f : vec2 -> vec2 -> bool) (l : vec2) (vs : list vec2) : bool :=
  match vs with [] => false | v :: r => xorb (f l v) (xsum f v r) end.

Lemma xsum_ext f g l vs : (forall a b, In (a, b) (combine (l :: removelast vs) vs) -> f a b = g a b) -> xsum f l vs = xsum g l vs.
Proof.
  revert l. induction vs as [|v vs IH]; intros l H; [reflexivity|]. cbn [xsum]. f_equal.
  - apply H. destruct vs; left; reflexivity.
  - apply IH. intros a b I. apply H. destruct vs as [|w vs]; [destruct I|]. right. exact I.
Qed.
Lemma xsum_xor f g l vs : xsum (fun a b => xorb (f a b) (g a b)) l vs = xorb (xsum f l vs) (xsum g l vs).
Proof. revert l. induction vs as [|v vs IH]; intros l; [reflexivity|]. cbn [xsum]. rewrite IH. destruct (f l v), (g l v), (xsum f v vs), (xsum g v vs); reflexivity. Qed.
Lemma xsum_cob p l vs : xsum (fun a b => xorb (p a) (p b)) l vs = xorb (p l) (p (last vs l)).
Proof.
  revert l. induction vs as [|v vs IH]; intros l; [cbn; destruct (p l); reflexivity|]. cbn [xsum]. rewrite IH.
  assert (E : last (v :: vs) l = last vs v). { clear. revert v l. induction vs as [|w vs IH]; intros v l; [reflexivity|]. change (last (v :: w :: vs) l) with (last (w :: vs) l). rewrite IH. symmetry. rewrite <- (IH w v). reflexivity. }
  rewrite E. destruct (p l), (p v), (p (last vs v)); reflexivity.
Qed.
Lemma xsum_map f h l vs : xsum f (h l) (map h vs) = xsum (fun a b => f (h a) (h b)) l vs.
Proof. revert l. induction vs as [|v vs IH]; intros l; [reflexivity|]. cbn [xsum map]. rewrite IH. reflexivity. Qed.

Definition esum (f : vec2 -> vec2 -> bool) (ps : list vec2) : bool := xsum f (last ps (0, 0)) ps.
Lemma last_indep {A} (ps : list A) d d' : ps <> [] -> last ps d = last ps d'.
Proof. induction ps as [|p ps IH]; [congruence|]. intros _. destruct ps; [reflexivity|]. change (last (a :: ps) d = last (a :: ps) d'). apply IH. discriminate. Qed.
Lemma esum_edges f ps : esum f ps = match ps with [] => false | p :: _ => xsum f (last ps p) ps end.
Proof. unfold esum. destruct ps as [|p ps]; [reflexivity|]. rewrite (last_indep (p :: ps) (0, 0) p) by discriminate. reflexivity. Qed.
Lemma esum_ext f g ps : (forall a b, In (a, b) (edges_of ps) -> f a b = g a b) -> esum f ps = esum g ps.
Proof. rewrite !esum_edges. unfold edges_of. destruct ps as [|p ps]; [reflexivity|]. apply xsum_ext. Qed.
Lemma esum_xor f g ps : esum (fun a b => xorb (f a b) (g a b)) ps = xorb (esum f ps) (esum g ps).
Proof. apply xsum_xor. Qed.
Lemma esum_cob p ps : esum (fun a b => xorb (p a) (p b)) ps = false.
Proof. rewrite esum_edges. destruct ps as [|v vs]; [reflexivity|]. rewrite xsum_cob. set (l := last (v :: vs) v) at 1. rewrite (last_indep (v :: vs) _ v) by discriminate. fold l. destruct (p l); reflexivity. Qed.
Lemma esum_map f h ps : esum f (map h ps) = esum (fun a b => f (h a) (h b)) ps.
Proof.
  destruct ps as [|p ps]; [reflexivity|]. unfold esum.
  assert (E : last (map h (p :: ps)) (0, 0) = h (last (p :: ps) (0, 0))); [|rewrite E; apply xsum_map].
  transitivity (last (map h (p :: ps)) (h (0, 0))); [apply last_indep; discriminate|]. generalize (0, 0) as d. generalize (p :: ps) as l. induction l as [|a l IH]; intros d; [reflexivity|]. cbn [map]. destruct l; [reflexivity|]. cbn [map] in *. exact (IH d).
Qed.

Lemma xsum_parity f P l vs : (forall a b, In (a, b) (combine (l :: removelast vs) vs) -> (f a b = true <-> P (a, b))) ->
  parity P (combine (l :: removelast vs) vs) (xsum f l vs).
Proof.
  revert l. induction vs as [|v vs IH]; intros l H; [constructor|].
  assert (S : parity P (combine (v :: removelast vs) vs) (xsum f v vs)) by (apply IH; intros a b I; apply H; destruct vs as [|w vs]; [destruct I|]; right; exact I).
  assert (E : combine (l :: removelast (v :: vs)) (v :: vs) = (l, v) :: combine (v :: removelast vs) vs) by (destruct vs; reflexivity). rewrite E in *. cbn [xsum].
  specialize (H l v (or_introl eq_refl)). destruct (f l v).
  - replace (xorb true (xsum f v vs)) with (negb (xsum f v vs)) by (destruct (xsum f v vs); reflexivity). constructor; [apply H; reflexivity|exact S].
  - replace (xorb false (xsum f v vs)) with (xsum f v vs) by (destruct (xsum f v vs); reflexivity). apply par_no; [intros K; apply H in K; discriminate|exact S].
Qed.
Lemma esum_parity f P ps : (forall a b, In (a, b) (edges_of ps) -> (f a b = true <-> P (a, b))) -> parity P (edges_of ps) (esum f ps).
Proof. rewrite esum_edges. unfold edges_of. destruct ps as [|p ps]; [intros; constructor|]. apply xsum_parity. Qed.
Lemma parity_fun {A} (P : A -> Prop) l b b' : parity P l b -> parity P l b' -> b = b'.
Proof.
  intros H. revert b'. induction H as [|x l b X H IH|x l b X H IH]; intros b' H'; inversion H'; subst; auto; try contradiction. f_equal. auto.
Qed.
Lemma edges_in_l {A} (ps : list A) a b : In (a, b) (edges_of ps) -> In a ps /\ In b ps.
Proof.
  unfold edges_of. destruct ps as [|p ps]; [intros []|]. intros I. split; [|eapply in_combine_r, I]. apply in_combine_l in I. destruct I as [<-|I].
  - assert (K : forall (x d : A) l, In (last (x :: l) d) (x :: l)). { intros x d l. revert x. induction l as [|y l IH]; intros x; [left; reflexivity|]. right. apply IH. } apply K.
  - assert (K : forall (l : list A) x, In x (removelast l) -> In x l). { induction l as [|y l IH]; intros x X; [destruct X|]. destruct l as [|z l]; [destruct X|]. destruct X as [->|X]; [left; reflexivity|right; apply IH, X]. } apply K, I.
Qed.

(** ** the loop *)
Lemma pip_loop_sum l vs rc lc :
  (In (0, 0) vs /\ pip_loop l vs rc lc = None) \/
  (~ In (0, 0) vs /\ pip_loop l vs rc lc = Some (xorb rc (xsum (fun a b => rcross b a) l vs), xorb lc (xsum (fun a b => lcross b a) l vs))).
Proof.
  revert l rc lc. induction vs as [|v vs IH]; intros l rc lc; cbn [pip_loop].
  - right. split; [intros []|]. cbn [xsum]. rewrite !xorb_false_r. reflexivity.
  - destruct (eqb_spec' (px v) 0) as [[-> X]|[-> X]], (eqb_spec' (py v) 0) as [[-> Y]|[-> Y]]; cbn [andb].
    1: { left. split; [left|reflexivity]. destruct v. cbn in *. congruence. }
    all: destruct (IH v (xorb rc (rcross v l)) (xorb lc (lcross v l))) as [[I E]|[I E]]; [left; split; [right; exact I|exact E]|right; split].
    1, 3, 5: intros [->|K]; [cbn in *; lra|contradiction].
    all: rewrite E; cbn [xsum]; rewrite !xorb_assoc; reflexivity.
Qed.

Definition rel (q p : vec2) : vec2 := (px p - px q, py p - py q).
Definition rc (q a b : vec2) : bool := rcross (rel q b) (rel q a).
Definition lc (q a b : vec2) : bool := lcross (rel q b) (rel q a).

Lemma rel_zero q p : rel q p = (0, 0) <-> p = q.
Proof. destruct q as [qx qy], p as [x y]. unfold rel. cbn. split; [intros E; injection E as E1 E2; f_equal; lra|intros E; injection E as -> ->; f_equal; ring]. Qed.

Lemma pip_cases q ps :
  (In q ps /\ point_in_polygon q ps = "v"%char) \/
  (~ In q ps /\ point_in_polygon q ps = if xorb (esum (rc q) ps) (esum (lc q) ps) then "e"%char else if esum (rc q) ps then "i"%char else "o"%char).
Proof.
  unfold point_in_polygon. change (fun p : vec2 => (px p - px q, py p - py q)) with (rel q).
  cbn zeta. match goal with |- context [pip_loop ?l ?vs false false] => destruct (pip_loop_sum l vs false false) as [[I E]|[I E]] end; rewrite E; clear E; [left|right].
  - split; [|reflexivity]. apply in_map_iff in I. destruct I as (p & Z & P). apply (proj1 (rel_zero q p)) in Z. rewrite <- Z. exact P.
  - split; [intros K; apply I, in_map_iff; exists q; split; [apply rel_zero; reflexivity|exact K]|].
    rewrite !xorb_false_l. pose proof (esum_map (fun a b => rcross b a) (rel q) ps) as E1. pose proof (esum_map (fun a b => lcross b a) (rel q) ps) as E2. unfold esum at 1 in E1. unfold esum at 1 in E2. unfold vec2 in *. rewrite E1, E2. reflexivity.
Qed.

(** ** one edge *)
Definition det (u v : vec2) : R := px u * py v - py u * px v.

Lemma div_sign_pos n d : 0 < d -> (0 < n / d <-> 0 < n) /\ (n / d < 0 <-> n < 0).
Proof.
  intros D. pose proof (Rinv_0_lt_compat d D) as I. unfold Rdiv. split; split; intros H.
  - apply Rmult_lt_reg_r with (/ d); [exact I|]. lra.
  - apply Rmult_lt_0_compat; assumption.
  - apply Rmult_lt_reg_r with (/ d); [exact I|]. lra.
  - nra.
Qed.
Lemma div_sign_neg n d : d < 0 -> (0 < n / d <-> n < 0) /\ (n / d < 0 <-> 0 < n).
Proof.
  intros D. replace (n / d) with ((- n) / (- d)) by (field; lra). destruct (div_sign_pos (- n) (- d)) as [A B]; [lra|]. rewrite A, B. split; split; intros; lra.
Qed.
Lemma ltb_iff a b c d : (a < b <-> c < d) -> ltb a b = ltb c d.
Proof. intros H. destruct (ltb_spec a b) as [[-> K]|[-> K]], (ltb_spec c d) as [[-> L]|[-> L]]; auto; [apply H in K; lra|apply H in L; lra]. Qed.

Lemma rcross_det u v : rcross v u = xorb (ltb 0 (py u)) (ltb 0 (py v)) && (if ltb 0 (py u) then ltb (det u v) 0 else ltb 0 (det u v)).
Proof.
  unfold rcross, rstrad, crossing_x, det. rewrite (xorb_comm (ltb 0 (py v))).
  replace (px v * py u - px u * py v) with (- (px u * py v - py u * px v)) by ring. set (D := px u * py v - py u * px v). clearbody D.
  destruct (ltb_spec 0 (py u)) as [[-> U]|[-> U]], (ltb_spec 0 (py v)) as [[-> V]|[-> V]]; cbn [xorb orb andb]; rewrite ?andb_false_r; try reflexivity.
  - apply ltb_iff. destruct (div_sign_pos (- D) (py u - py v)) as [-> _]; [lra|]. split; intros; lra.
  - apply ltb_iff. destruct (div_sign_neg (- D) (py u - py v)) as [-> _]; [lra|]. split; intros; lra.
Qed.
Lemma lcross_det u v : lcross v u = xorb (ltb (py u) 0) (ltb (py v) 0) && (if ltb (py u) 0 then ltb (det u v) 0 else ltb 0 (det u v)).
Proof.
  unfold lcross, lstrad, crossing_x, det. rewrite (xorb_comm (ltb (py v) 0)).
  replace (px v * py u - px u * py v) with (- (px u * py v - py u * px v)) by ring. set (D := px u * py v - py u * px v). clearbody D.
  destruct (ltb_spec (py u) 0) as [[-> U]|[-> U]], (ltb_spec (py v) 0) as [[-> V]|[-> V]]; cbn [xorb orb andb]; rewrite ?andb_false_r, ?orb_true_r; try reflexivity; cbn [andb].
  - apply ltb_iff. destruct (div_sign_neg (- D) (py u - py v)) as [_ ->]; [lra|]. split; intros; lra.
  - apply ltb_iff. destruct (div_sign_pos (- D) (py u - py v)) as [_ ->]; [lra|]. split; intros; lra.
Qed.

(** a point on a segment, decided *)
Definition within (a b p : R) : Prop := a <= p <= b \/ b <= p <= a.
Lemma on_segment_iff a b p : on_segment a b p <-> orient2d a b p = 0 /\ within (px a) (px b) (px p) /\ within (py a) (py b) (py p).
Proof.
  split.
  - intros S. split; [apply seg_orient, S|]. destruct S as (t & T & ->). unfold at2, px, py, within. cbn [fst snd].
    destruct (mid_le (fst a) (fst b) t T), (mid_le (snd a) (snd b) t T). split; [destruct (Rle_dec (fst a) (fst b))|destruct (Rle_dec (snd a) (snd b))]; lra.
  - intros (O & X & Y). destruct (Req_EM_T (fst a) (fst b)) as [Ex|Nx]; [destruct (Req_EM_T (snd a) (snd b)) as [Ey|Ny]|].
    + exists 0. split; [lra|]. destruct a as [a1 a2], b as [b1 b2], p as [p1 p2]. unfold within, px, py, at2 in *. cbn [fst snd] in *. f_equal; lra.
    + apply between_spec; [intros E; congruence|exact O|]. unfold between, px, py in *. destruct (eqb_spec' (fst a) (fst b)) as [[-> _]|[_ K]]; [|contradiction]. cbn [negb]. rewrite orb_true_iff, !andb_true_iff, !leb_true. unfold within in Y. tauto.
    + apply between_spec; [intros E; congruence|exact O|]. unfold between, px, py in *. destruct (eqb_spec' (fst a) (fst b)) as [[_ K]|[-> _]]; [contradiction|]. cbn [negb]. rewrite orb_true_iff, !andb_true_iff, !leb_true. unfold within in X. tauto.
Qed.
Definition withinb (a b p : R) : bool := (leb a p && leb p b) || (leb b p && leb p a).
Lemma withinb_true a b p : withinb a b p = true <-> within a b p.
Proof. unfold withinb, within. rewrite orb_true_iff, !andb_true_iff, !leb_true. tauto. Qed.
Definition segb (a b p : vec2) : bool := eqb (orient2d a b p) 0 && (withinb (px a) (px b) (px p) && withinb (py a) (py b) (py p)).
Lemma segb_true a b p : segb a b p = true <-> on_segment a b p.
Proof. unfold segb. rewrite on_segment_iff, !andb_true_iff, eqb_true, !withinb_true. tauto. Qed.

Definition phi (u : vec2) : bool := if ltb 0 (py u) then false else if ltb (py u) 0 then true else ltb 0 (px u).

(** sign of a product *)
Lemma prod_sign x y : (0 < x -> 0 < y -> 0 < x * y) /\ (0 < x -> y < 0 -> x * y < 0) /\ (x < 0 -> 0 < y -> x * y < 0) /\ (x < 0 -> y < 0 -> 0 < x * y) /\ (x = 0 -> x * y = 0) /\ (y = 0 -> x * y = 0).
Proof. repeat split; intros; try nra; subst; ring. Qed.
Ltac prod x y := let H := fresh "P" in pose proof (prod_sign x y) as H.
Ltac sgn x := destruct (Rtotal_order x 0) as [?H|[?H|?H]].

Ltac bools := repeat match goal with
  | |- context [ltb ?a ?b] => let K := fresh in first [assert (K : ltb a b = true) by (apply ltb_true; lra) | assert (K : ltb a b = false) by (apply ltb_false; lra)]; rewrite K; clear K
  | |- context [leb ?a ?b] => let K := fresh in first [assert (K : leb a b = true) by (apply leb_true; lra) | assert (K : leb a b = false) by (apply leb_false; lra)]; rewrite K; clear K
  | |- context [eqb ?a ?b] => let K := fresh in first [assert (K : eqb a b = true) by (apply eqb_true; lra) | assert (K : eqb a b = false) by (apply eqb_false; lra)]; rewrite K; clear K
  end.

Lemma origin_edge u v : u <> (0, 0) -> v <> (0, 0) ->
  xorb (xorb (rcross v u) (lcross v u)) (segb u v (0, 0)) = xorb (phi u) (phi v).
Proof.
  intros Nu Nv. rewrite rcross_det, lcross_det. unfold segb, phi, withinb. destruct u as [ux uy], v as [vx vy].
  assert (Hu : ux <> 0 \/ uy <> 0) by (destruct (Req_EM_T ux 0) as [->|]; [|auto]; destruct (Req_EM_T uy 0) as [->|]; [elim Nu; reflexivity|auto]).
  assert (Hv : vx <> 0 \/ vy <> 0) by (destruct (Req_EM_T vx 0) as [->|]; [|auto]; destruct (Req_EM_T vy 0) as [->|]; [elim Nv; reflexivity|auto]).
  unfold orient2d, det, px, py. cbn [fst snd]. replace ((ux - 0) * (vy - 0) - (uy - 0) * (vx - 0)) with (ux * vy - uy * vx) by ring. clear Nu Nv.
  destruct (prod_sign ux vy) as (P1 & P2 & P3 & P4 & P5 & P6), (prod_sign uy vx) as (Q1 & Q2 & Q3 & Q4 & Q5 & Q6).
  set (p := ux * vy) in *. set (q := uy * vx) in *. clearbody p q.
  sgn ux; sgn uy; try lra; sgn vx; sgn vy; try lra;
  repeat match goal with H : ?A -> ?B |- _ => first [specialize (H ltac:(assumption)) | clear H] end; sgn (p - q); try lra; bools; reflexivity.
Qed.
