(** The project's own tests of the conversions, tests/runtime/StringConvTests.cpp,
    run on the model.  They check the transcription of the code, not the code. *)
From Coq Require Import Ascii String NArith ZArith QArith Bool List.
From Verif Require Import Base StringConv FloatConv.
Import ListNotations.
Local Open Scope Z_scope.

Definition platforms : list platform :=
  [Platform true Long32; Platform true Long64; Platform false Long32; Platform false Long64].
Definition signed_types : list ctype := [CSChar; CShort; CInt; CLong; CLLong].
Definition unsigned_types : list ctype := [CUChar; CUShort; CUInt; CULong; CULLong].
Definition types : list ctype := CChar :: signed_types ++ unsigned_types.

(** TestIntegerToString, line 11. *)
Example TestIntegerToString :
  forallb (fun t => bytes_eqb (toString t 314) (lit "314")) [CInt; CLong; CLLong; CUInt; CULong; CULLong] &&
  forallb (fun t => bytes_eqb (toString t (-314)) (lit "-314")) [CInt; CLong; CLLong] = true.
Proof. vm_compute. reflexivity. Qed.

(** A literal of a floating-point type: the nearest value. *)
Definition flit (f : fmt) (q : Q) : fval :=
  if Qeq_bool q 0 then Fin false 0 (emin f)
  else if Qltb q 0 then let '(m, e) := round_fmt f (- q) in Fin true m e
  else let '(m, e) := round_fmt f q in Fin false m e.

(** float, double and long double with either format. *)
Definition formats : list fmt := [binary32; binary64; binary64; x87].
Definition prints_as (f : fmt) (q : Q) (s : string) : bool := bytes_eqb (toStringF (flit f q)) (lit s).

(** TestFloatToString, line 26. *)
Example TestFloatToString : forallb (fun f => prints_as f (314 # 100) "3.14") formats = true.
Proof. vm_compute. reflexivity. Qed.

(** TestFloatToStringEdgeCases, line 33. *)
Example TestFloatToStringEdgeCases :
  forallb (fun p => prints_as binary32 (fst p) (snd p))
    [(100000 # 1, "100000"); (1000000 # 1, "1e+06"); (1 # 10000, "0.0001"); (1 # 100000, "1e-05");
     (299999 # 100000, "2.99999"); (2999999 # 1000000, "3"); (3000001 # 1000000, "3");
     (300001 # 100000, "3.00001")]%string = true.
Proof. vm_compute. reflexivity. Qed.

(** TestFloatToStringZero, line 48. *)
Example TestFloatToStringZero :
  forallb (fun f => forallb (fun q => prints_as f q "0") [0%Q; 1 # 10000000; -1 # 10000000] &&
                    bytes_eqb (toStringF (Fin true 0 (emin f))) (lit "0")) formats = true.
Proof. vm_compute. reflexivity. Qed.

(** TestFloatToStringSpecial, line 69. *)
Example TestFloatToStringSpecial :
  firstn 3 (toStringF (NaN false)) = lit "nan" /\ firstn 3 (toStringF (Inf false)) = lit "inf" /\
  firstn 4 (toStringF (Inf true)) = lit "-inf".
Proof. vm_compute. auto. Qed.

Definition gives (p : platform) (s : string) (v : option Z) (t : ctype) : bool :=
  match fromString p t (lit s), v with
  | Some x, Some y => x =? y
  | None, None => true
  | _, _ => false
  end.

(** TestIntegerFromStringValidPositive and ValidNegative, lines 78 and 137. *)
Example TestIntegerFromStringValid :
  forallb (fun p => forallb (gives p "16" (Some 16)) types &&
                    forallb (gives p "-16" (Some (-16))) signed_types) platforms = true.
Proof. vm_compute. reflexivity. Qed.

(** CHAR_MAX, SCHAR_MAX, ... and CHAR_MIN, SCHAR_MIN, ... *)
Definition max_of (p : platform) (t : ctype) : Z :=
  match t with
  | CChar => if char_signed p then 127 else 255
  | CSChar => 127 | CUChar => 255 | CShort => 32767 | CUShort => 65535
  | CInt => 2147483647 | CUInt => 4294967295
  | CLong => match long_is p with Long32 => 2147483647 | Long64 => 9223372036854775807 end
  | CULong => match long_is p with Long32 => 4294967295 | Long64 => 18446744073709551615 end
  | CLLong => 9223372036854775807 | CULLong => 18446744073709551615
  end.
Definition fails (p : platform) (t : ctype) (s : bytes) : bool :=
  match fromString p t s with None => true | Some _ => false end.

(** TestIntegerFromStringOutOfRangePositive, line 166. *)
Example TestIntegerFromStringOutOfRangePositive :
  forallb (fun p => forallb (fun t => fails p t (toString t (max_of p t) ++ lit "0")) types) platforms = true.
Proof. vm_compute. reflexivity. Qed.

(** TestIntegerFromStringOutOfRangeNegative, line 214. *)
Example TestIntegerFromStringOutOfRangeNegative :
  forallb (fun p =>
    (if char_signed p then fails p CChar (toString CInt (-128) ++ lit "0")
     else fails p CChar (lit "-1")) &&
    forallb (fun t => fails p t (toString t (- max_of p t - 1) ++ lit "0")) signed_types &&
    forallb (fun t => fails p t (lit "-1")) unsigned_types) platforms = true.
Proof. vm_compute. reflexivity. Qed.

(** TestIntegerFromStringNoDigits and PartialNumber, lines 269 and 328. *)
Example TestIntegerFromStringInvalid :
  forallb (fun p => forallb (fun t => fails p t (lit "string") && fails p t (lit "") &&
                                      fails p t (lit "16string")) types) platforms = true.
Proof. vm_compute. reflexivity. Qed.

Definition gives_f (f : fmt) (uf : bool) (s : string) (q : Q) : bool :=
  match floatFromString f uf (lit s), flit f q with
  | Some (Fin n m e), Fin n' m' e' => Bool.eqb n n' && (m =? m') && (e =? e')
  | _, _ => false
  end.

(** TestFloatFromStringValid, line 376; the values are equal, not just close. *)
Example TestFloatFromStringValid :
  forallb (fun f => forallb (fun uf => forallb (fun p => gives_f f uf (fst p) (snd p))
    [("3.14", 314 # 100); ("0.0000001", 1 # 10000000); ("123456789", 123456789 # 1);
     ("1e16", 10000000000000000 # 1); ("1e+16", 10000000000000000 # 1);
     ("1e-16", 1 # 10000000000000000)]%string) [true; false]) formats = true.
Proof. vm_compute. reflexivity. Qed.

Definition fails_f (f : fmt) (uf : bool) (s : bytes) : bool :=
  match floatFromString f uf s with None => true | Some _ => false end.

(** FLT_MAX, DBL_MAX, LDBL_MAX. *)
Definition largest (f : fmt) : fval := Fin false (2 ^ prec f - 1) (emax f).

(** TestFloatFromStringOutOfRange, line 425.  For the x87 format the text of LDBL_MAX
    followed by a 0 denotes a number of 49321 digits, which takes too long to compute;
    1e5000 is used there. *)
Example TestFloatFromStringOutOfRange :
  toStringF (largest binary32) ++ lit "0" = lit "3.40282e+380" /\
  toStringF (largest binary64) ++ lit "0" = lit "1.79769e+3080" /\
  fails_f binary32 false (lit "3.40282e+380") = true /\
  fails_f binary64 false (lit "1.79769e+3080") = true /\
  fails_f x87 false (lit "1e5000") = true.
Proof. vm_compute. auto. Qed.

(** TestFloatFromStringNoDigits and PartialNumber, lines 441 and 460. *)
Example TestFloatFromStringInvalid :
  forallb (fun f => forallb (fun uf =>
    forallb (fails_f f uf) [lit "string"; lit ""; lit "3.14string"]) [true; false]) formats = true.
Proof. vm_compute. reflexivity. Qed.
