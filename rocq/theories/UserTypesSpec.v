(** Specification of the user-defined types of the examples.  From the models only the
    representation of values is used. *)
From Coq Require Import Ascii String NArith ZArith QArith Qpower Qabs Bool PeanoNat List.
Import ListNotations.
From Verif Require Import Base StringConv StringConvSpec SerializerSpec FloatConv FloatConvSpec.

Local Notation length := List.length.
Local Open Scope Q_scope.

(** ** Numbers with six decimals *)

(** n / 10^6 is nearest to [q] among all multiples of 10^-6; of two, the one with even n. *)
Definition nearest_millionth (q : Q) (n : Z) : Prop :=
  forall n', Qabs (q - inject_Z n * (1 # 1000000)) <= Qabs (q - inject_Z n' * (1 # 1000000)) /\
    (Qabs (q - inject_Z n * (1 # 1000000)) == Qabs (q - inject_Z n' * (1 # 1000000)) ->
     n' <> n -> Z.even n = true).

Definition sign_text (neg : bool) : bytes := if neg then lit "-" else [].

(** The text of a number with exactly six decimals and no superfluous leading zeros. *)
Inductive fixed_text : Z -> bytes -> Prop :=
| fixed_text_intro : forall n z ip fp,
    canonical z ip -> length fp = 6%nat -> digits (ip ++ fp) n ->
    fixed_text n (ip ++ "."%char :: fp).

Inductive shows_fixed : fval -> bytes -> Prop :=
| shows_fixed_number : forall neg m e n s,
    nearest_millionth (inject_Z m * 2 ^ e) n -> fixed_text n s ->
    shows_fixed (Fin neg m e) (sign_text neg ++ s)
| shows_fixed_inf : forall neg, shows_fixed (Inf neg) (sign_text neg ++ lit "inf")
| shows_fixed_nan : forall neg, shows_fixed (NaN neg) (sign_text neg ++ lit "nan").

(** The same value, or numbers of the same sign at most 10^-6 apart. *)
Inductive close : fval -> fval -> Prop :=
| close_same : forall v, close v v
| close_number : forall neg m e m' e',
    Qabs (inject_Z m' * 2 ^ e' - inject_Z m * 2 ^ e) <= 1 # 1000000 ->
    close (Fin neg m e) (Fin neg m' e').

(** Numbers of magnitude at least 16, infinite values and NaN. *)
Definition at_least_16 (v : fval) : Prop :=
  match v with Fin _ m e => 16 <= inject_Z m * 2 ^ e | _ => True end.

(** Zero, numbers of magnitude at least 1.1755 * 10^-38, infinite values and NaN. *)
Definition not_tiny (v : fval) : Prop :=
  match v with
  | Fin _ m e => m = 0%Z \/ inject_Z 117550 * 10 ^ (-43) <= inject_Z m * 2 ^ e
  | _ => True
  end.

(** Letters, digits, underscores, points and minus signs: a name that needs no quotes. *)
Definition bare_name (s : bytes) : Prop :=
  s <> [] /\ Forall (fun c => n_char c \/ c = "."%char \/ c = "-"%char) s.

(** ** Pairs *)

(** What a compound argument with two numbers denotes. *)
Definition denotes_pair (uf : bool) (v : list bytes) (xy : fval * fval) : Prop :=
  exists s t, v = [s; t] /\ conversion binary32 uf s (fst xy) /\ conversion binary32 uf t (snd xy).

Definition is_float (uf : bool) (s : bytes) : Prop := exists x, conversion binary32 uf s x.

(** The error for an argument that denotes no pair: of the two items the first bad one is
    named. *)
Inductive pair_error (uf : bool) (name : bytes) (v : list bytes) : bytes -> Prop :=
| pair_count : forall d e,
    length v <> 2%nat -> mismatch_detail 2 (length v) d ->
    conversion_error name v (Some d) e -> pair_error uf name v e
| pair_first : forall s t d e,
    v = [s; t] -> ~ is_float uf s -> conversion_error (lit "float") [s] None d ->
    conversion_error name v (Some d) e -> pair_error uf name v e
| pair_second : forall s t d e,
    v = [s; t] -> is_float uf s -> ~ is_float uf t -> conversion_error (lit "float") [t] None d ->
    conversion_error name v (Some d) e -> pair_error uf name v e.

(** ** Arrays and sums *)

(** The sums of the non-empty prefixes. *)
Definition prefix_sum (xs : list Z) (s : Z) : Prop :=
  exists a x b, xs = a ++ x :: b /\ s = fold_right Z.add 0%Z (a ++ [x]).
Definition int_range (z : Z) : Prop := (- 2 ^ 31 <= z < 2 ^ 31)%Z.

(** ** Angles *)

(** The float nearest to the product of [v] and [c] > 0; infinite if that is too large. *)
Inductive product : fval -> Q -> fval -> Prop :=
| product_number : forall neg m e c m' e',
    ~ too_large binary32 (inject_Z m * 2 ^ e * c) ->
    nearest_magnitude binary32 (inject_Z m * 2 ^ e * c) m' e' ->
    product (Fin neg m e) c (Fin neg m' e')
| product_large : forall neg m e c,
    too_large binary32 (inject_Z m * 2 ^ e * c) -> product (Fin neg m e) c (Inf neg)
| product_inf : forall neg c, product (Inf neg) c (Inf neg)
| product_nan : forall neg c, product (NaN neg) c (NaN neg).

(** [c] is 180 divided by pi, where pi, given with 15 digits, and the quotient are rounded to
    float. *)
Definition radian_in_degrees (c : Q) : Prop :=
  exists m e m' e',
    nearest_magnitude binary32 (314159265358979 # 100000000000000) m e /\
    nearest_magnitude binary32 (180 / (inject_Z m * 2 ^ e)) m' e' /\
    c = inject_Z m' * 2 ^ e'.

(** A number followed by r is in radians; by d or nothing, in degrees. *)
Inductive angle (uf : bool) (c : Q) : bytes -> fval -> Prop :=
| angle_radians : forall s y x,
    conversion binary32 uf s y -> product y c x -> angle uf c (s ++ ["r"%char]) x
| angle_degrees : forall s x, conversion binary32 uf s x -> angle uf c (s ++ ["d"%char]) x
| angle_plain : forall s a x,
    a <> "r"%char -> a <> "d"%char -> conversion binary32 uf (s ++ [a]) x -> angle uf c (s ++ [a]) x.

(** The number that the message about a bad angle is about. *)
Inductive angle_number : bytes -> bytes -> Prop :=
| angle_number_suffix : forall s a, a = "r"%char \/ a = "d"%char -> angle_number (s ++ [a]) s
| angle_number_plain : forall s a, a <> "r"%char -> a <> "d"%char -> angle_number (s ++ [a]) (s ++ [a]).

Inductive angle_error (uf : bool) (c : Q) : bytes -> bytes -> Prop :=
| angle_error_empty : angle_error uf c [] (lit "Conversion error")
| angle_error_number : forall s t e,
    angle_number s t -> ~ is_float uf t -> conversion_error (lit "float") [t] None e ->
    angle_error uf c s e.
