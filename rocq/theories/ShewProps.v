(** C43: the orientation predicates return a number with the sign of the exact determinant. *)
From Coq Require Import ZArith Reals Lra Lia Bool List.
From Flocq Require Import Core.
From Verif Require Import ShewModel ShewSpec ShewGrid ShewSum ShewExp ShewScale ShewEst Shew2d Shew3dBounds Shew3d Shew3dMain.
Import ListNotations.
Open Scope R_scope.

Lemma arithmetic_sat op : arithmetic op -> forall x, sat True (op x) (fun y => y = RN x).
Proof. intros A x. unfold sat. destruct (op x) as [y|] eqn:E; [exact (A x y E)|exact I]. Qed.
Lemma total_sat op : arithmetic op -> (forall x, op x <> None) -> forall x, sat False (op x) (fun y => y = RN x).
Proof. intros A T x. unfold sat. destruct (op x) as [y|] eqn:E; [exact (A x y E)|exact (T x E)]. Qed.
Lemma sat_elim {A} m (P : A -> Prop) r : sat True m P -> m = Some r -> P r.
Proof. intros S ->. exact S. Qed.
Lemma sat_elim_total {A} m (P : A -> Prop) : sat False m P -> exists r, m = Some r /\ P r.
Proof. intros S. destruct m as [r|]; [exists r; split; [reflexivity|exact S]|destruct S]. Qed.

(** For every correctly rounding arithmetic and all points with floating-point coordinates: whatever orient2d returns has the sign of the
    determinant, positive, negative or zero. *)
Theorem C43_orient2d op a b c r : arithmetic op -> float2 a -> float2 b -> float2 c -> orient2d op a b c = Some r -> same_sign r (det2 a b c).
Proof.
  intros A Ha Hb Hc E. destruct a as [ax ay], b as [bx by_], c as [cx cy]. destruct Ha, Hb, Hc. cbn [fst snd] in *.
  refine (sat_elim _ _ r (orient2d_sat op True (arithmetic_sat op A) ax ay bx by_ cx cy _ _ _ _ _ _) E); apply is_float_fmt; assumption.
Qed.
Lemma orient3d_close op a b c d r : arithmetic op -> float3 a -> float3 b -> float3 c -> float3 d -> orient3d op a b c d = Some r -> close r (det3 a b c d).
Proof.
  intros A Ha Hb Hc Hd E. destruct a as [[ax ay] az], b as [[bx by_] bz], c as [[cx cy] cz], d as [[dx dy] dz]. destruct Ha as (? & ? & ?), Hb as (? & ? & ?), Hc as (? & ? & ?), Hd as (? & ? & ?). cbn [fst snd] in *.
  refine (sat_elim _ _ r (orient3d_sat op True (arithmetic_sat op A) ax ay az bx by_ bz cx cy cz dx dy dz _ _ _ _ _ _ _ _ _ _ _ _) E); apply is_float_fmt; assumption.
Qed.
Theorem C43_orient3d op a b c d r : arithmetic op -> float3 a -> float3 b -> float3 c -> float3 d -> orient3d op a b c d = Some r -> same_sign r (det3 a b c d).
Proof. intros. apply close_sign. eapply orient3d_close; eassumption. Qed.
(** They always return if no operation fails: no expansion outgrows the array that receives it (in the model, the write of a component past the end of its array is a failure). *)
Theorem C43_orient2d_total op a b c : arithmetic op -> (forall x, op x <> None) -> float2 a -> float2 b -> float2 c -> exists r, orient2d op a b c = Some r.
Proof.
  intros A T Ha Hb Hc. destruct a as [ax ay], b as [bx by_], c as [cx cy]. destruct Ha, Hb, Hc. cbn [fst snd] in *.
  destruct (sat_elim_total _ _ (orient2d_sat op False (total_sat op A T) ax ay bx by_ cx cy ltac:(apply is_float_fmt; assumption) ltac:(apply is_float_fmt; assumption) ltac:(apply is_float_fmt; assumption) ltac:(apply is_float_fmt; assumption) ltac:(apply is_float_fmt; assumption) ltac:(apply is_float_fmt; assumption))) as (r & E & _).
  exists r. exact E.
Qed.
Theorem C43_orient3d_total op a b c d : arithmetic op -> (forall x, op x <> None) -> float3 a -> float3 b -> float3 c -> float3 d -> exists r, orient3d op a b c d = Some r.
Proof.
  intros A T Ha Hb Hc Hd. destruct a as [[ax ay] az], b as [[bx by_] bz], c as [[cx cy] cz], d as [[dx dy] dz]. destruct Ha as (? & ? & ?), Hb as (? & ? & ?), Hc as (? & ? & ?), Hd as (? & ? & ?). cbn [fst snd] in *.
  pose proof (orient3d_sat op False (total_sat op A T) ax ay az bx by_ bz cx cy cz dx dy dz) as S.
  destruct (sat_elim_total _ _ (S ltac:(apply is_float_fmt; assumption) ltac:(apply is_float_fmt; assumption) ltac:(apply is_float_fmt; assumption) ltac:(apply is_float_fmt; assumption) ltac:(apply is_float_fmt; assumption) ltac:(apply is_float_fmt; assumption) ltac:(apply is_float_fmt; assumption) ltac:(apply is_float_fmt; assumption) ltac:(apply is_float_fmt; assumption) ltac:(apply is_float_fmt; assumption) ltac:(apply is_float_fmt; assumption) ltac:(apply is_float_fmt; assumption))) as (r & E & _).
  exists r. exact E.
Qed.

(** The hypotheses can be met: an arithmetic that never fails, and IEEE double precision. *)
Definition exact_exponent (x : R) : option R := Some (round radix2 (FLX_exp 53) ZnearestE x).
Theorem C43_arithmetic_exists : arithmetic exact_exponent /\ (forall x, exact_exponent x <> None).
Proof. split; [intros x y E; injection E as <-; reflexivity|discriminate]. Qed.
Theorem C43_double : arithmetic double_op.
Proof.
  intros x y. unfold double_op. cbv zeta. destruct (_ && _) eqn:B; [|discriminate]. apply andb_prop in B. destruct B as [_ B]. intros E. injection E as <-. unfold rounded. destruct (Req_bool_spec (round radix2 (FLT_exp (-1074) 53) ZnearestE x) (round radix2 (FLX_exp 53) ZnearestE x)); [assumption|discriminate].
Qed.
