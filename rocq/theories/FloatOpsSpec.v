(** Arithmetic of float, stated without the algorithms of FloatOps.v. *)
From Coq Require Import ZArith QArith Qpower Qabs Bool.
From Verif Require Import Base StringConv StringConvSpec FloatConv FloatConvSpec.
Local Open Scope Q_scope.

(** The float nearest to a magnitude, with this sign; infinite if that is too large. *)
Inductive nearest_float (neg : bool) (q : Q) : fval -> Prop :=
| nearest_finite : forall m e, ~ too_large binary32 q -> nearest_magnitude binary32 q m e ->
    nearest_float neg q (Fin neg m e)
| nearest_infinite : too_large binary32 q -> nearest_float neg q (Inf neg).

(** The operations on magnitudes. *)
Definition magnitude (x : fval) (q : Q) : Prop := exists neg m e, x = Fin neg m e /\ q = inject_Z m * 2 ^ e.
Definition negative (x : fval) : bool := match x with Fin s _ _ => s | Inf s => s | NaN s => s end.
Definition infinite (x : fval) : Prop := exists s, x = Inf s.
Definition not_a_number (x : fval) : Prop := exists s, x = NaN s.
Definition zero (x : fval) : Prop := exists s e, x = Fin s 0 e.

Section Ops.
Variable nan_sign : bool.

Inductive float_product (a b : fval) : fval -> Prop :=
| product_finite : forall q r x, magnitude a q -> magnitude b r ->
    nearest_float (xorb (negative a) (negative b)) (q * r) x -> float_product a b x
| product_infinite : infinite a \/ infinite b -> ~ zero a -> ~ zero b ->
    ~ not_a_number a -> ~ not_a_number b ->
    float_product a b (Inf (xorb (negative a) (negative b)))
| product_invalid : infinite a /\ zero b \/ zero a /\ infinite b -> float_product a b (NaN nan_sign)
| product_nan : forall s, a = NaN s \/ ~ not_a_number a /\ b = NaN s -> float_product a b (NaN s).

Inductive float_quotient (a b : fval) : fval -> Prop :=
| quotient_finite : forall q r x, magnitude a q -> magnitude b r -> ~ zero b ->
    nearest_float (xorb (negative a) (negative b)) (q / r) x -> float_quotient a b x
| quotient_by_zero : zero b -> ~ zero a -> ~ not_a_number a ->
    float_quotient a b (Inf (xorb (negative a) (negative b)))
| quotient_of_infinite : forall q, infinite a -> magnitude b q ->
    float_quotient a b (Inf (xorb (negative a) (negative b)))
| quotient_by_infinite : forall q, magnitude a q -> infinite b ->
    float_quotient a b (Fin (xorb (negative a) (negative b)) 0 (-149))
| quotient_invalid : zero a /\ zero b \/ infinite a /\ infinite b -> float_quotient a b (NaN nan_sign)
| quotient_nan : forall s, a = NaN s \/ ~ not_a_number a /\ b = NaN s -> float_quotient a b (NaN s).
End Ops.

(** Cutting off the fraction of a number gives [n], which the type has. *)
Definition whole_part (p : platform) (t : ctype) (x : fval) (n : Z) : Prop :=
  in_range p t n /\ exists q, stands_for x q /\ Qabs (q - inject_Z n) < 1 /\ Qabs (inject_Z n) <= Qabs q.
Definition no_whole_part (p : platform) (t : ctype) (x : fval) : Prop := forall n, ~ whole_part p t x n.
