(** Specification of the texts of floating-point numbers. *)
From Coq Require Import Ascii String NArith ZArith QArith Qabs Bool PeanoNat List.
Import ListNotations.
From Verif Require Import Base LexerSpec StringConv StringConvSpec FloatConv FloatConvSpec UserTypesSpec.

Local Notation length := List.length.
Local Open Scope Q_scope.

(** A fraction with its point; it does not end in 0, and without digits there is no point. *)
Inductive short_fraction : bytes -> bytes -> Prop :=
| short_none : short_fraction [] []
| short_some : forall fp c, c <> "0"%char -> short_fraction ("."%char :: fp ++ [c]) (fp ++ [c]).

(** An exponent: its sign and at least two digits. *)
Inductive signed_exponent : Z -> bytes -> Prop :=
| signed_exponent_intro : forall X ds,
    canonical (Z.abs X) ds -> (2 <= length ds)%nat ->
    signed_exponent X ("e"%char :: (if (X <? 0)%Z then "-"%char else "+"%char) :: ds)
| signed_exponent_short : forall X c,
    canonical (Z.abs X) [c] ->
    signed_exponent X ("e"%char :: (if (X <? 0)%Z then "-"%char else "+"%char) :: "0"%char :: [c]).

(** The text of d * 10^k, where d has six digits: without exponent from 0.0001 to 999999, and
    otherwise with one digit before the point. *)
Inductive general_text (d k : Z) : bytes -> Prop :=
| general_plain : forall z ip ft fp n,
    (-9 <= k <= 0)%Z -> canonical z ip -> short_fraction ft fp -> digits (ip ++ fp) n ->
    inject_Z n * 10 ^ (- Z.of_nat (length fp)) == inject_Z d * 10 ^ k ->
    general_text d k (ip ++ ft)
| general_exponent : forall c ft fp n ex,
    ~ (-9 <= k <= 0)%Z -> c <> "0"%char -> short_fraction ft fp -> digits (c :: fp) n ->
    signed_exponent (k + 5) ex ->
    inject_Z n * 10 ^ (k + 5 - Z.of_nat (length fp)) == inject_Z d * 10 ^ k ->
    general_text d k (c :: ft ++ ex).

(** The text of a value as %g writes it: the nearest number with six digits. *)
Inductive shows_general : fval -> bytes -> Prop :=
| shows_general_zero : forall neg e, shows_general (Fin neg 0 e) (sign_text neg ++ lit "0")
| shows_general_number : forall neg m e d k s,
    (0 < m)%Z -> nearest6 (inject_Z m * 2 ^ e) d k -> general_text d k s ->
    shows_general (Fin neg m e) (sign_text neg ++ s)
| shows_general_inf : forall neg, shows_general (Inf neg) (sign_text neg ++ lit "inf")
| shows_general_nan : forall neg, shows_general (NaN neg) (sign_text neg ++ lit "nan").

(** The text of a result: numbers whose magnitude is below the bound are 0. *)
Inductive shows (bound : Q) (v : fval) : bytes -> Prop :=
| shows_tiny : forall q, stands_for v q -> Qabs q < bound -> shows bound v (lit "0")
| shows_other : forall s, (forall q, stands_for v q -> bound <= Qabs q) -> shows_general v s -> shows bound v s.

(** The bound for float, and the double 1e-6. *)
Definition millionth : Q := 1 # 1000000.
Definition nearly_millionth : Q := inject_Z 4722366482869645 * 2 ^ (-72).
