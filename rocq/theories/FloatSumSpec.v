(** The sum of floats, stated without the algorithms of FloatSum.v. *)
From Coq Require Import ZArith QArith Qpower Qabs Bool.
From Verif Require Import Base StringConv FloatConv FloatConvSpec FloatOpsSpec.
Local Open Scope Q_scope.

(** The sum of two floats with the exact values [q] and [r]. *)
Inductive sum_sign (a b : fval) (q : Q) : bool -> Prop :=
| sum_below : q < 0 -> sum_sign a b q true
| sum_above : 0 < q -> sum_sign a b q false
| sum_zero : q == 0 -> sum_sign a b q (negative a && negative b).

Inductive float_sum (nan_sign : bool) (a b : fval) : fval -> Prop :=
| sum_finite : forall q r neg x, stands_for a q -> stands_for b r -> sum_sign a b (q + r) neg ->
    nearest_float neg (Qabs (q + r)) x -> float_sum nan_sign a b x
| sum_infinite : forall s, (a = Inf s /\ (b = Inf s \/ exists q, stands_for b q)) \/ ((exists q, stands_for a q) /\ b = Inf s) ->
    float_sum nan_sign a b (Inf s)
| sum_invalid : forall s, a = Inf s -> b = Inf (negb s) -> float_sum nan_sign a b (NaN nan_sign)
| sum_nan : forall s, a = NaN s \/ ~ not_a_number a /\ b = NaN s -> float_sum nan_sign a b (NaN s).
