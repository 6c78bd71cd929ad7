(** Arithmetic of float as the examples use it: IEEE 754 binary32, to nearest, without excess
    precision, and the conversions between float and the unsigned type std::size_t. *)
From Coq Require Import ZArith QArith Qround Bool.
From Verif Require Import Base StringConv FloatConv.
Local Open Scope Q_scope.

(** A magnitude [q] >= 0 with its sign. *)
Definition rounded (neg : bool) (q : Q) : fval :=
  if Qle_bool q 0 then Fin neg 0 (emin binary32)
  else
    let '(m, e) := round_fmt binary32 q in
    if (emax binary32 <? e)%Z then Inf neg else Fin neg m e.

Section Ops.
(** The sign of the NaN that an invalid operation makes. *)
Variable nan_sign : bool.

(** operator* *)
Definition fmul (a b : fval) : fval :=
  match a, b with
  | NaN s, _ => NaN s
  | _, NaN s => NaN s
  | Fin s m e, Fin t m' e' => rounded (xorb s t) (dyadic m e * dyadic m' e')
  | Inf s, Inf t => Inf (xorb s t)
  | Inf s, Fin t m _ => if (m =? 0)%Z then NaN nan_sign else Inf (xorb s t)
  | Fin s m _, Inf t => if (m =? 0)%Z then NaN nan_sign else Inf (xorb s t)
  end.

(** operator/ *)
Definition fdiv (a b : fval) : fval :=
  match a, b with
  | NaN s, _ => NaN s
  | _, NaN s => NaN s
  | Inf _, Inf _ => NaN nan_sign
  | Inf s, Fin t _ _ => Inf (xorb s t)
  | Fin s _ _, Inf t => Fin (xorb s t) 0 (emin binary32)
  | Fin s m e, Fin t m' e' =>
      if (m' =? 0)%Z then (if (m =? 0)%Z then NaN nan_sign else Inf (xorb s t))
      else rounded (xorb s t) (dyadic m e / dyadic m' e')
  end.
End Ops.

(** The largest value of the type that std::size_t is. *)
Definition size_max (p : platform) (size_t : ctype) : Z :=
  match size_t with
  | CUInt => 2 ^ 32 - 1
  | CULong => match long_is p with Long32 => 2 ^ 32 - 1 | Long64 => 2 ^ 64 - 1 end
  | _ => 2 ^ 64 - 1
  end%Z.

(** Conversion of a std::size_t to float. *)
Definition of_size (n : Z) : fval := rounded false (inject_Z n).

(** static_cast<std::size_t>: the fraction is cut off; without a value if the result is undefined. *)
Definition to_size (p : platform) (size_t : ctype) (x : fval) : option Z :=
  match x with
  | Fin neg m e =>
      let n := Qfloor (dyadic m e) in
      let z := (if neg then - n else n)%Z in
      if (0 <=? z)%Z && (z <=? size_max p size_t)%Z then Some z else None
  | _ => None
  end.
