(** Model of src/StringConv.cpp: text <-> integer conversions, and of the C library
    functions they call. *)
From Coq Require Import Ascii String NArith ZArith Bool PeanoNat List.
Import ListNotations.
From Verif Require Import Base.

(** Platform-dependent choices: signedness of plain char, width of long. *)
Inductive long_width := Long32 | Long64.
Record platform := Platform { char_signed : bool; long_is : long_width }.

Definition long_bits (p : platform) : Z :=
  match long_is p with Long32 => 32 | Long64 => 64 end.

(** The built-in integer types with serializers, include/coil/detail/TypeSerializer.h:46-56. *)
Inductive ctype :=
| CChar | CSChar | CUChar | CShort | CUShort | CInt | CUInt | CLong | CULong | CLLong | CULLong.

(** <limits.h> values used in src/StringConv.cpp:195-228 and by the strto* functions. *)
Definition smin (bits : Z) : Z := (- 2 ^ (bits - 1))%Z.
Definition smax (bits : Z) : Z := (2 ^ (bits - 1) - 1)%Z.
Definition umax (bits : Z) : Z := (2 ^ bits - 1)%Z.

Definition CHAR_MIN (p : platform) : Z := if char_signed p then smin 8 else 0%Z.
Definition CHAR_MAX (p : platform) : Z := if char_signed p then smax 8 else umax 8.

(** Used by strtol and its variants, src/StringConv.cpp:22-28.  isspace in the C locale: space, \t, \n, \v, \f, \r. *)
Definition isspace (c : byte) : bool :=
  let n := uchar c in N.eqb n 32 || ((9 <=? n)%N && (n <=? 13)%N).

Definition isdigit (c : byte) : bool :=
  let n := uchar c in ((48 <=? n)%N && (n <=? 57)%N).

Definition digit_val (c : byte) : Z := (Z.of_N (uchar c) - 48)%Z.

(** Subject sequence of the strto* functions with base 10: white space, optional
    sign, digits.  Result: magnitude, sign, number of characters consumed (0 if
    there are no digits). *)
Fixpoint skip_while (p : byte -> bool) (s : bytes) (n : nat) : bytes * nat :=
  match s with
  | c :: r => if p c then skip_while p r (S n) else (s, n)
  | [] => (s, n)
  end.

Fixpoint read_digits (s : bytes) (n : nat) (acc : Z) : Z * nat :=
  match s with
  | c :: r => if isdigit c then read_digits r (S n) (acc * 10 + digit_val c)%Z else (acc, n)
  | [] => (acc, n)
  end.

Definition subject (s : bytes) : Z * bool * nat :=
  let '(s1, n1) := skip_while isspace s 0 in
  let '(neg, s2, n2) :=
    match s1 with
    | c :: r => if N.eqb (uchar c) 45 then (true, r, S n1)
                else if N.eqb (uchar c) 43 then (false, r, S n1)
                else (false, s1, n1)
    | [] => (false, s1, n1)
    end in
  let '(m, n3) := read_digits s2 n2 0%Z in
  if (n3 =? n2)%nat then (0%Z, false, 0) else (m, neg, n3).

(** strtol/strtoll with base 10 on a C string: (value, ERANGE?, end offset).  The
    value returned with ERANGE is the limit. *)
Definition strto_signed (bits : Z) (s : bytes) : Z * bool * nat :=
  let '(m, neg, n) := subject (c_str s) in
  let v := if neg then (- m)%Z else m in
  if (v <? smin bits)%Z then (smin bits, true, n)
  else if (smax bits <? v)%Z then (smax bits, true, n)
  else (v, false, n).

(** strtoul/strtoull with base 10: out of range is judged on the magnitude; a minus
    sign negates in the unsigned type. *)
Definition strto_unsigned (bits : Z) (s : bytes) : Z * bool * nat :=
  let '(m, neg, n) := subject (c_str s) in
  if (umax bits <? m)%Z then (umax bits, true, n)
  else ((if neg then (- m) mod 2 ^ bits else m)%Z, false, n).

(** signedIntegerFromString, src/StringConv.cpp:30-44. *)
Definition signedIntegerFromString (bits : Z) (s : bytes) : option Z :=
  match s with
  | [] => None
  | _ =>
      let '(v, erange, n) := strto_signed bits s in
      if erange then None
      else if (n =? length s)%nat then Some v else None
  end.

(** unsignedIntegerFromString, src/StringConv.cpp:46-63. *)
Definition unsignedIntegerFromString (bits : Z) (s : bytes) : option Z :=
  match s with
  | [] => None
  | c :: _ =>
      if N.eqb (uchar c) 45 then None
      else
        let '(v, erange, n) := strto_unsigned bits s in
        if erange then None
        else if (n =? length s)%nat then Some v else None
  end.

(** signedAliasFromString, src/StringConv.cpp:81-91. *)
Definition signedAliasFromString (p : platform) (s : bytes) (mn mx : Z) : option Z :=
  match signedIntegerFromString (long_bits p) s with
  | None => None
  | Some r => if (r <? mn)%Z || (mx <? r)%Z then None else Some r
  end.

(** unsignedAliasFromString, src/StringConv.cpp:93-103. *)
Definition unsignedAliasFromString (p : platform) (s : bytes) (mx : Z) : option Z :=
  match unsignedIntegerFromString (long_bits p) s with
  | None => None
  | Some r => if (mx <? r)%Z then None else Some r
  end.

(** coil::fromString overloads, src/StringConv.cpp:160-228. *)
Definition fromString (p : platform) (t : ctype) (s : bytes) : option Z :=
  match t with
  | CLong => signedIntegerFromString (long_bits p) s
  | CLLong => signedIntegerFromString 64 s
  | CULong => unsignedIntegerFromString (long_bits p) s
  | CULLong => unsignedIntegerFromString 64 s
  | CChar => signedAliasFromString p s (CHAR_MIN p) (CHAR_MAX p)
  | CSChar => signedAliasFromString p s (smin 8) (smax 8)
  | CUChar => unsignedAliasFromString p s (umax 8)
  | CShort => signedAliasFromString p s (smin 16) (smax 16)
  | CUShort => unsignedAliasFromString p s (umax 16)
  | CInt => signedAliasFromString p s (smin 32) (smax 32)
  | CUInt => unsignedAliasFromString p s (umax 32)
  end.

(** * Printing *)

Definition digit_char (d : Z) : byte := ascii_of_N (Z.to_N (d + 48)%Z).

(** Decimal digits of a non-negative number, least significant digit first produced
    and pushed to the front.  Fuel: the number of binary digits is enough. *)
Fixpoint dec_loop (fuel : nat) (n : Z) (acc : bytes) : bytes :=
  match fuel with
  | O => acc
  | S f =>
      let acc := digit_char (n mod 10)%Z :: acc in
      if (n <? 10)%Z then acc else dec_loop f (n / 10)%Z acc
  end.

Definition dec (n : Z) : bytes := dec_loop (S (Z.to_nat (Z.log2 n))) n [].

(** printf conversions %d, %ld, %lld, src/StringConv.cpp:108-118. *)
Definition printf_d (v : Z) : bytes :=
  if (v <? 0)%Z then ascii_of_N 45 :: dec (- v)%Z else dec v.

(** printf conversions %u, %lu, %llu, src/StringConv.cpp:123-133, and %zu. *)
Definition printf_u (v : Z) : bytes := dec v.

(** printf conversion %zu of a container size. *)
Definition printf_zu (n : nat) : bytes := printf_u (Z.of_nat n).

(** coil::toString overloads, src/StringConv.cpp:106-134.  The types narrower than
    int are promoted to int by overload resolution. *)
Definition toString (t : ctype) (v : Z) : bytes :=
  match t with
  | CChar | CSChar | CUChar | CShort | CUShort | CInt | CLong | CLLong => printf_d v
  | CUInt | CULong | CULLong => printf_u v
  end.
