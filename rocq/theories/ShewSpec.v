(** What the orientation predicates have to compute, in exact real arithmetic, and what a floating-point operation is. *)
From Coq Require Import ZArith Reals Bool.
From Flocq Require Import Core.
Open Scope R_scope.

(** A number with 53 significant bits (every finite double is one). *)
Definition is_float (x : R) : Prop := exists m e : Z, x = IZR m * bpow radix2 e /\ (Z.abs m < 2 ^ 53)%Z.

(** [y] is a nearest number with 53 significant bits of [x], the even one of two. *)
Definition rounded (x y : R) : Prop := y = round radix2 (FLX_exp 53) ZnearestE x.

(** An arithmetic: whatever it returns is the exact result correctly rounded.  It may fail to return (overflow, underflow). *)
Definition arithmetic (op : R -> option R) : Prop := forall x y, op x = Some y -> rounded x y.

(** IEEE double precision: the result is rounded to a multiple of 2^-1074 with at most 53 significant bits; too large a result, and one
    that the smallest exponent makes less precise, are failures. *)
Definition double_op (x : R) : option R :=
  let y := round radix2 (FLT_exp (-1074) 53) ZnearestE x in
  if Rlt_bool (Rabs y) (bpow radix2 1024) && Req_bool y (round radix2 (FLX_exp 53) ZnearestE x) then Some y else None.

(** Twice the signed area of the triangle a, b, c *)
Definition det2 (a b c : R * R) : R :=
  (fst a - fst c) * (snd b - snd c) - (snd a - snd c) * (fst b - fst c).

(** Six times the signed volume of the tetrahedron a, b, c, d *)
Definition det3 (a b c d : R * R * R) : R :=
  let x p := fst (fst p) - fst (fst d) in let y p := snd (fst p) - snd (fst d) in let z p := snd p - snd d in
  z a * (x b * y c - x c * y b) + z b * (x c * y a - x a * y c) + z c * (x a * y b - x b * y a).

Definition same_sign (x y : R) : Prop := (0 < x <-> 0 < y) /\ (x < 0 <-> y < 0).

Definition float2 (p : R * R) : Prop := is_float (fst p) /\ is_float (snd p).
Definition float3 (p : R * R * R) : Prop := is_float (fst (fst p)) /\ is_float (snd (fst p)) /\ is_float (snd p).

(** Coordinates of an ordinary size: multiples of 2^-250 of magnitude at most 2^250. *)
Definition ordinary (x : R) : Prop := is_float x /\ (exists m : Z, x = IZR m * bpow radix2 (-250)) /\ Rabs x <= bpow radix2 250.
Definition ordinary2 (p : R * R) : Prop := ordinary (fst p) /\ ordinary (snd p).
Definition ordinary3 (p : R * R * R) : Prop := ordinary (fst (fst p)) /\ ordinary (snd (fst p)) /\ ordinary (snd p).

(** Double precision where a result too small for 53 bits is rounded to fewer instead of failing (overflow is left out). *)
Definition gradual_op (x : R) : option R := Some (round radix2 (FLT_exp (-1074) 53) ZnearestE x).
