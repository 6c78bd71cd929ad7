(** Specification of integer texts and integer types. *)
From Coq Require Import Ascii String NArith ZArith Bool PeanoNat List.
Import ListNotations.
From Verif Require Import Base StringConv.

(** Range of the values of an integer type. *)
Definition type_min (p : platform) (t : ctype) : Z :=
  match t with
  | CChar => if char_signed p then -128 else 0
  | CSChar => -128
  | CShort => -32768
  | CInt => -2147483648
  | CLong => match long_is p with Long32 => -2147483648 | Long64 => -9223372036854775808 end
  | CLLong => -9223372036854775808
  | CUChar | CUShort | CUInt | CULong | CULLong => 0
  end%Z.

Definition type_max (p : platform) (t : ctype) : Z :=
  match t with
  | CChar => if char_signed p then 127 else 255
  | CSChar => 127
  | CUChar => 255
  | CShort => 32767
  | CUShort => 65535
  | CInt => 2147483647
  | CUInt => 4294967295
  | CLong => match long_is p with Long32 => 2147483647 | Long64 => 9223372036854775807 end
  | CULong => match long_is p with Long32 => 4294967295 | Long64 => 18446744073709551615 end
  | CLLong => 9223372036854775807
  | CULLong => 18446744073709551615
  end%Z.

Definition in_range (p : platform) (t : ctype) (z : Z) : Prop :=
  (type_min p t <= z <= type_max p t)%Z.

(** Types converted with the unsigned functions. *)
Definition is_unsigned (t : ctype) : bool :=
  match t with CUChar | CUShort | CUInt | CULong | CULLong => true | _ => false end.

Definition blank (c : byte) : Prop :=
  In (nat_of_ascii c) [32; 9; 10; 11; 12; 13].
Definition blanks (s : bytes) : Prop := forall c, In c s -> blank c.

(** Value of a decimal digit. *)
Inductive digit : byte -> Z -> Prop :=
| digit_intro : forall k, k < 10 -> digit (ascii_of_nat (48 + k)) (Z.of_nat k).

(** Value of a sequence of decimal digits, most significant first. *)
Inductive digits : bytes -> Z -> Prop :=
| digits_one : forall c d, digit c d -> digits [c] d
| digits_snoc : forall s c z d, digits s z -> digit c d -> digits (s ++ [c]) (10 * z + d)%Z.

Inductive sign : bytes -> (Z -> Z) -> Prop :=
| sign_none : sign [] (fun z => z)
| sign_plus : sign [ascii_of_nat 43] (fun z => z)
| sign_minus : sign [ascii_of_nat 45] Z.opp.

(** [denotes s z]: the whole text is white space, an optional sign and digits, and
    its value is [z]. *)
Inductive denotes : bytes -> Z -> Prop :=
| denotes_intro : forall ws sg f ds z,
    blanks ws -> sign sg f -> digits ds z -> denotes (ws ++ sg ++ ds) (f z).

(** The text starts with a minus sign after at least one blank. *)
Definition blank_minus (s : bytes) : Prop :=
  exists ws r, s = ws ++ ascii_of_nat 45 :: r /\ ws <> [] /\ blanks ws.

(** Canonical text of an integer: no white space, no plus sign, no leading zeros. *)
Inductive canonical : Z -> bytes -> Prop :=
| canonical_zero : canonical 0 [ascii_of_nat 48]
| canonical_pos : forall c ds z,
    (0 < z)%Z -> digits (c :: ds) z -> c <> ascii_of_nat 48 -> canonical z (c :: ds)
| canonical_neg : forall z s,
    (0 < z)%Z -> canonical z s -> canonical (- z) (ascii_of_nat 45 :: s).

(** Width of the type computed with by the C library function used for a type:
    long long for the long long types, long otherwise. *)
Definition route_bits (p : platform) (t : ctype) : Z :=
  match t with
  | CLLong | CULLong => 64
  | _ => match long_is p with Long32 => 32 | Long64 => 64 end
  end%Z.
