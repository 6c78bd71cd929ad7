(** operator+ of float as BasicExample.cpp:46-49 uses it: IEEE 754 binary32, to nearest, without
    excess precision. *)
From Coq Require Import ZArith QArith Qabs Bool.
From Verif Require Import Base StringConv FloatConv FloatOps.
Local Open Scope Q_scope.

(** BasicExample.cpp:46-49.  The sign of a sum: of an exact zero it is positive unless both zeros are negative. *)
Definition sum_negative (s t : bool) (q : Q) : bool :=
  if Qle_bool 0 q then (if Qle_bool q 0 then s && t else false) else true.

Definition fadd (nan_sign : bool) (a b : fval) : fval :=
  match a, b with
  | NaN s, _ => NaN s
  | _, NaN s => NaN s
  | Inf s, Inf t => if Bool.eqb s t then Inf s else NaN nan_sign
  | Inf s, Fin _ _ _ => Inf s
  | Fin _ _ _, Inf t => Inf t
  | Fin s m e, Fin t m' e' =>
      let q := signed s (dyadic m e) + signed t (dyadic m' e') in rounded (sum_negative s t q) (Qabs q)
  end.
