(** Model of the type serializers: src/Coil.cpp:53-115, 428-593, 625-645,
    include/coil/detail/TypeSerializer.h and include/coil/StdLibCompat.h. *)
From Coq Require Import Ascii String NArith ZArith Bool PeanoNat List.
Import ListNotations.
From Verif Require Import Base Lexer StringConv.

(** TypeSerializer<T> together with TypeName<T>.  [from_value] is
    TypeSerializer<T>::fromString, [to_text] is TypeSerializer<T>::toString.  User
    code may supply any such record. *)
Record serializer := Ser {
  carrier : Type;
  tname : bytes;
  from_value : value -> expected carrier;
  to_text : carrier -> bytes
}.

(** Value::str, src/Coil.cpp:446-458: a loop appending prefix and sub-value. *)
Fixpoint str_loop (result prefix : bytes) (subvalues : value) : bytes :=
  match subvalues with
  | [] => result
  | s :: rest => str_loop ((result ++ prefix) ++ s) (lit " ") rest
  end.
Definition value_str (v : value) : bytes := str_loop [] (lit "") v.

(** errors::createGenericError, src/Coil.cpp:483-491.  %s and %.*s stop at a NUL.
    Simplified: lengths of 2^31 and more, which slength() truncates, are not modelled. *)
Definition createGenericError (typeName : bytes) (input : value) (details : bytes) : bytes :=
  let representation := value_str input in
  let text := lit "Unable to convert '" ++ c_str representation ++
              lit "' to type '" ++ c_str typeName ++ lit "'" in
  match details with
  | [] => text
  | _ => text ++ lit ": " ++ c_str details
  end.

(** errors::createMismatchedSubvaluesError, src/Coil.cpp:493-496. *)
Definition createMismatchedSubvaluesError (typeName : bytes) (input : value) (n : nat) : bytes :=
  createGenericError typeName input
    (lit "Expected " ++ printf_zu n ++ lit " subvalues, got " ++ printf_zu (length input)).

(** arithmeticFromString<T>, src/Coil.cpp:53-63, for a type T whose coil::fromString
    is [conv].  Used with the integer types and with float, double, long double. *)
Definition arithmeticFromString {T} (name : bytes) (conv : bytes -> option T) (input : value)
  : expected T :=
  match input with
  | [s] => match conv s with
           | Some x => Value x
           | None => Error (createGenericError name input [])
           end
  | _ => Error (createMismatchedSubvaluesError name input 1)
  end.

Definition arith_serializer {T} (name : bytes) (conv : bytes -> option T) (show : T -> bytes)
  : serializer :=
  Ser T name (arithmeticFromString name conv) show.

(** defaultName<T>, src/Coil.cpp:65-89. *)
Definition defaultName (t : ctype) : bytes :=
  match t with
  | CChar => lit "char"
  | CSChar => lit "signed char"
  | CUChar => lit "unsigned char"
  | CShort => lit "short"
  | CUShort => lit "unsigned short"
  | CInt => lit "int"
  | CUInt => lit "unsigned int"
  | CLong => lit "long"
  | CULong => lit "unsigned long"
  | CLLong => lit "long long"
  | CULLong => lit "unsigned long long"
  end.

(** arithmeticName<T>, src/Coil.cpp:91-115.  The platform decides whether int64_t is
    long or long long. *)
Record naming := Naming { use_alias : bool; int64_is_long : bool }.

Definition arithmeticName (nm : naming) (t : ctype) : bytes :=
  if use_alias nm then
    match t with
    | CSChar => lit "int8"
    | CUChar => lit "uint8"
    | CShort => lit "int16"
    | CUShort => lit "uint16"
    | CInt => lit "int32"
    | CUInt => lit "uint32"
    | CLong => if int64_is_long nm then lit "int64" else defaultName t
    | CULong => if int64_is_long nm then lit "uint64" else defaultName t
    | CLLong => if int64_is_long nm then defaultName t else lit "int64"
    | CULLong => if int64_is_long nm then defaultName t else lit "uint64"
    | CChar => defaultName t
    end
  else defaultName t.

(** DEFINE_ARITHMETIC_TYPE_SERIALIZER for the integer types, src/Coil.cpp:499-519. *)
Definition int_serializer (p : platform) (nm : naming) (t : ctype) : serializer :=
  arith_serializer (arithmeticName nm t) (fromString p t) (toString t).

(** tolower in the C locale, on the int value of a char, src/Coil.cpp:533. *)
Definition tolower (z : Z) : Z := if (65 <=? z)%Z && (z <=? 90)%Z then (z + 32)%Z else z.

(** The lambda equalCaseInsensitive, src/Coil.cpp:527-537. *)
Definition equalCaseInsensitive (sg : bool) (a b : bytes) : bool :=
  (length a =? length b)%nat &&
  forallb (fun p => (tolower (char_val sg (fst p)) =? tolower (char_val sg (snd p)))%Z)
          (combine a b).

(** TypeSerializer<bool>, src/Coil.cpp:525-562. *)
Definition boolFromString (sg : bool) (input : value) : expected bool :=
  match input with
  | [s] =>
      if bytes_eqb s (lit "1") then Value true
      else if bytes_eqb s (lit "0") then Value false
      else if equalCaseInsensitive sg s (lit "true") then Value true
      else if equalCaseInsensitive sg s (lit "false") then Value false
      else Error (createGenericError (lit "bool") input [])
  | _ => Error (createMismatchedSubvaluesError (lit "bool") input 1)
  end.

Definition boolToString (b : bool) : bytes := if b then lit "true" else lit "false".

Definition bool_serializer (sg : bool) : serializer :=
  Ser bool (lit "bool") (boolFromString sg) boolToString.

(** TypeSerializer<String>, <StringView>, <std::string>, <std::string_view>:
    src/Coil.cpp:564-588, include/coil/StdLibCompat.h:147-175.  A view is modelled by
    the bytes it refers to; the lifetime of those bytes is not modelled here. *)
Definition stringFromString (input : value) : expected bytes :=
  match input with
  | [s] => Value s
  | _ => Error (createMismatchedSubvaluesError (lit "string") input 1)
  end.

Definition string_serializer : serializer :=
  Ser bytes (lit "string") stringFromString (fun s => s).

(** TypeSerializer<Value>, src/Coil.cpp:460-468, include/coil/detail/Value.h:45-59. *)
Definition value_serializer : serializer :=
  Ser value (lit "coil::Value") (fun v => Value v) value_str.

(** TypeSerializer<std::vector<T>>::fromString, include/coil/StdLibCompat.h:46-60: the
    loop over the sub-values with the elements converted so far. *)
Fixpoint vector_loop (T : serializer) (name : bytes) (input : value)
         (rest : list bytes) (result : list (carrier T)) : expected (list (carrier T)) :=
  match rest with
  | [] => Value result
  | s :: rest =>
      match from_value T [s] with
      | Error e => Error (createGenericError name input e)
      | Value x => vector_loop T name input rest (result ++ [x])
      end
  end.

(** TypeSerializer<std::vector<T>>::toString, include/coil/StdLibCompat.h:62-76. *)
Fixpoint vector_text (T : serializer) (result separator : bytes) (xs : list (carrier T)) : bytes :=
  match xs with
  | [] => result ++ lit "]"
  | x :: r => vector_text T ((result ++ separator) ++ to_text T x) (lit ", ") r
  end.

(** TypeName<std::vector<T>>, include/coil/StdLibCompat.h:79-87. *)
Definition vector_serializer (T : serializer) : serializer :=
  let name := lit "vector<" ++ tname T ++ lit ">" in
  Ser (list (carrier T)) name
      (fun input => vector_loop T name input input [])
      (fun xs => vector_text T (lit "[") (lit "") xs).

(** TypeSerializer<std::optional<T>>, include/coil/StdLibCompat.h:93-125. *)
Definition optional_serializer (T : serializer) : serializer :=
  let name := lit "optional<" ++ tname T ++ lit ">" in
  Ser (option (carrier T)) name
      (fun input =>
         match input with
         | [] => Value None
         | [] :: _ => Value None
         | s :: _ =>
             match from_value T [s] with
             | Value x => Value (Some x)
             | Error e => Error (createGenericError name input e)
             end
         end)
      (fun o => match o with None => [] | Some x => to_text T x end).

(** * Result printers *)

(** TypeSerializer<T>::toString for the types that can be returned but not passed. *)
Record printer := Printer {
  p_carrier : Type;
  p_text : p_carrier -> outcome bytes
}.

Definition printer_of (T : serializer) : printer :=
  Printer (carrier T) (fun x => Done (to_text T x)).

(** TypeSerializer<T*>::toString, include/coil/detail/TypeSerializer.h:105-112. *)
Definition pointer_printer (P : printer) : printer :=
  Printer (option (p_carrier P))
          (fun o => match o with None => Done (lit "null") | Some x => p_text P x end).

(** TypeSerializer<char const*>::toString, src/Coil.cpp:590-593: String{value}, whose
    constructor (src/String.cpp:8) calls strlen.  A non-null pointer refers to the
    given bytes followed by a NUL. *)
Definition cstring_printer : printer :=
  Printer (option bytes)
          (fun o => match o with None => Fault NullDeref | Some s => Done (c_str s) end).
