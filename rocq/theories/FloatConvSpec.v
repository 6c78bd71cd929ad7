(** What the floating-point conversions should do, stated without the algorithms of
    FloatConv.v.  From the model only the representation of values is used. *)
From Coq Require Import Ascii String NArith ZArith QArith Qpower Qabs Bool PeanoNat List.
Import ListNotations.
From Verif Require Import Base StringConv StringConvSpec SerializerSpec FloatConv.
Local Open Scope Q_scope.

(** ** Values *)

(** A usable format. *)
Definition sane (f : fmt) : Prop := (2 <= prec f)%Z /\ (emin f <= emax f)%Z.

(** The one representation of each magnitude: subnormal significands only with the least
    exponent. *)
Definition magnitude_in (f : fmt) (m e : Z) : Prop :=
  (0 <= m < 2 ^ prec f)%Z /\ (emin f <= e <= emax f)%Z /\
  ((m < 2 ^ (prec f - 1))%Z -> e = emin f).

Definition value_in (f : fmt) (v : fval) : Prop :=
  match v with Fin _ m e => magnitude_in f m e | _ => True end.

(** The rational number a finite value stands for. *)
Inductive stands_for : fval -> Q -> Prop :=
| stands_pos : forall m e q, q == inject_Z m * 2 ^ e -> stands_for (Fin false m e) q
| stands_neg : forall m e q, q == - (inject_Z m * 2 ^ e) -> stands_for (Fin true m e) q.

(** m * 2^e is the value of the format nearest to [q] >= 0; of two, the one with even m. *)
Definition nearest_magnitude (f : fmt) (q : Q) (m e : Z) : Prop :=
  magnitude_in f m e /\
  forall m' e', magnitude_in f m' e' ->
    Qabs (q - inject_Z m * 2 ^ e) <= Qabs (q - inject_Z m' * 2 ^ e') /\
    (Qabs (q - inject_Z m * 2 ^ e) == Qabs (q - inject_Z m' * 2 ^ e') ->
     (m', e') <> (m, e) -> Z.even m = true).

(** At or beyond the middle between the largest value and the next one there would be. *)
Definition too_large (f : fmt) (q : Q) : Prop :=
  (inject_Z (2 ^ prec f) - (1 # 2)) * 2 ^ emax f <= q.

(** Less than the least normal value after rounding, and changed by rounding. *)
Definition too_small (f : fmt) (q : Q) (m e : Z) : Prop :=
  (m < 2 ^ (prec f - 1))%Z /\ ~ q == inject_Z m * 2 ^ e.

(** ** Texts *)

Inductive xdigit : byte -> Z -> Prop :=
| xdigit_dec : forall c d, digit c d -> xdigit c d
| xdigit_low : forall n, (n < 6)%nat -> xdigit (ascii_of_nat (97 + n)) (Z.of_nat (10 + n))
| xdigit_up : forall n, (n < 6)%nat -> xdigit (ascii_of_nat (65 + n)) (Z.of_nat (10 + n)).

Inductive xdigits : bytes -> Z -> Prop :=
| xdigits_one : forall c d, xdigit c d -> xdigits [c] d
| xdigits_snoc : forall s c z d, xdigits s z -> xdigit c d -> xdigits (s ++ [c]) (16 * z + d)%Z.

(** A fraction, with the point before it; the point is optional if there are no digits. *)
Inductive fraction : bytes -> bytes -> Prop :=
| fraction_none : fraction [] []
| fraction_some : forall fp, fraction ("."%char :: fp) fp.

(** An optional exponent marked by [l] in either case. *)
Inductive exponent (l : byte) : bytes -> Z -> Prop :=
| exponent_none : exponent l [] 0
| exponent_some : forall c sg f ds z,
    spells [c] [l] -> sign sg f -> digits ds z -> exponent l (c :: sg ++ ds) (f z).

(** Decimal and hexadecimal numbers without sign; at least one digit in the significand. *)
Inductive decimal_text : bytes -> Q -> Prop :=
| decimal_text_intro : forall ip ft fp ex z x,
    fraction ft fp -> digits (ip ++ fp) z -> exponent "e"%char ex x ->
    decimal_text (ip ++ ft ++ ex) (inject_Z z * 10 ^ (x - Z.of_nat (length fp))).

Inductive hex_text : bytes -> Q -> Prop :=
| hex_text_intro : forall c ip ft fp ex z x,
    spells [c] (lit "x") -> fraction ft fp -> xdigits (ip ++ fp) z -> exponent "p"%char ex x ->
    hex_text ("0"%char :: c :: ip ++ ft ++ ex)
             (inject_Z z * 2 ^ (x - 4 * Z.of_nat (length fp))).

(** What may stand in the parentheses of nan(...). *)
Definition n_char (c : byte) : Prop :=
  (exists d, digit c d) \/ c = "_"%char \/
  (97 <= nat_of_ascii c <= 122)%nat \/ (65 <= nat_of_ascii c <= 90)%nat.

Inductive nan_tail : bytes -> Prop :=
| nan_plain : nan_tail []
| nan_paren : forall s, Forall n_char s -> nan_tail ("("%char :: s ++ [")"%char]).

Inductive meaning := Number (q : Q) | Infinite | NotANumber.

Inductive unsigned_text : bytes -> meaning -> Prop :=
| unsigned_decimal : forall s q, decimal_text s q -> unsigned_text s (Number q)
| unsigned_hex : forall s q, hex_text s q -> unsigned_text s (Number q)
| unsigned_inf : forall s, spells s (lit "inf") -> unsigned_text s Infinite
| unsigned_infinity : forall s, spells s (lit "infinity") -> unsigned_text s Infinite
| unsigned_nan : forall s t, spells s (lit "nan") -> nan_tail t -> unsigned_text (s ++ t) NotANumber.

(** White space, an optional sign ([true] for minus) and one of the above. *)
Inductive float_text : bytes -> bool -> meaning -> Prop :=
| float_text_intro : forall ws sg neg s M,
    blanks ws ->
    sg = [] /\ neg = false \/ sg = ["+"%char] /\ neg = false \/ sg = ["-"%char] /\ neg = true ->
    unsigned_text s M -> float_text (ws ++ sg ++ s) neg M.

(** The value a text is to be converted to.  [uf]: whether inexact tiny results count as
    range errors. *)
Inductive conversion (f : fmt) (uf : bool) (s : bytes) : fval -> Prop :=
| conversion_number : forall neg q m e,
    float_text s neg (Number q) -> ~ too_large f q -> nearest_magnitude f q m e ->
    (uf = true -> ~ too_small f q m e) -> conversion f uf s (Fin neg m e)
| conversion_inf : forall neg, float_text s neg Infinite -> conversion f uf s (Inf neg)
| conversion_nan : forall neg, float_text s neg NotANumber -> conversion f uf s (NaN neg).

(** ** Decimal numbers with six significant digits *)

(** d * 10^k is nearest to [q] > 0 among all numbers with six digits; of two, the one with
    even d. *)
Definition nearest6 (q : Q) (d k : Z) : Prop :=
  (100000 <= d <= 999999)%Z /\
  forall d' k', (0 <= d' <= 999999)%Z ->
    Qabs (q - inject_Z d * 10 ^ k) <= Qabs (q - inject_Z d' * 10 ^ k') /\
    (Qabs (q - inject_Z d * 10 ^ k) == Qabs (q - inject_Z d' * 10 ^ k') ->
     ~ inject_Z d * 10 ^ k == inject_Z d' * 10 ^ k' -> Z.even d = true).
