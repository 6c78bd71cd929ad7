(** Model of the serializer for enumerations of the examples (examples/common/EnumSupport.h,
    examples/common/Utils.h), of the parts of examples/include/magic_enum.hpp it uses, and of
    the flags variable of examples/flags/FlagsExample.cpp. *)
From Coq Require Import Ascii String NArith ZArith Bool PeanoNat List.
Import ListNotations.
From Verif Require Import Base Lexer StringConv Serializer.

Local Notation length := List.length.

(** Underlying types that have a serializer. *)
Inductive utype := UBool | UInt (t : ctype).

(** An enumeration type as declared: its name as the compiler spells it, its underlying type,
    whether that type is fixed (scoped enumerations and those with an explicit type), and the
    enumerators in the order of declaration with their values. *)
Record enumeration := Enumeration {
  e_type : bytes;
  e_under : utype;
  e_fixed : bool;
  e_decl : list (bytes * Z)
}.

Section Enums.
(** The platform decides the width of long and the signedness of char; [nm] the names of
    integer types, which do not matter here. *)
Variable p : platform.
Variable nm : naming.

(** std::numeric_limits<U>::min(), max() and digits. *)
Definition limits (u : utype) : Z * Z :=
  match u with
  | UBool => (0, 1)
  | UInt CChar => (CHAR_MIN p, CHAR_MAX p)
  | UInt CSChar => (smin 8, smax 8)
  | UInt CUChar => (0, umax 8)
  | UInt CShort => (smin 16, smax 16)
  | UInt CUShort => (0, umax 16)
  | UInt CInt => (smin 32, smax 32)
  | UInt CUInt => (0, umax 32)
  | UInt CLong => (smin (long_bits p), smax (long_bits p))
  | UInt CULong => (0, umax (long_bits p))
  | UInt CLLong => (smin 64, smax 64)
  | UInt CULLong => (0, umax 64)
  end%Z.
Definition digits (u : utype) : Z := Z.log2 (snd (limits u) + 1).

(** * magic_enum::detail *)

(** n<E, V>, magic_enum.hpp:329-349: the name the compiler writes for the constant V in
    __PRETTY_FUNCTION__, which is that of the first enumerator declared with this value, or a
    cast expression, from which pretty_name (198-215) makes an empty name.  Simplified: only
    enumerators whose names are ASCII identifiers (pretty_name cuts others). *)
Definition n (e : enumeration) (v : Z) : bytes :=
  match find (fun d => (snd d =? v)%Z) (e_decl e) with
  | Some d => fst d
  | None => []
  end.

(** is_valid, 354-359. *)
Definition is_valid (e : enumeration) (v : Z) : bool := negb (length (n e v) =? 0).

(** reflected_min, 361-379; MAGIC_ENUM_RANGE_MIN is -128 (84-86). *)
Definition reflected_min (e : enumeration) (IsFlags : bool) : Z :=
  if IsFlags then 0%Z
  else let lhs := (-128)%Z in
       let rhs := fst (limits (e_under e)) in
       if (lhs <? rhs)%Z then rhs else lhs.

(** reflected_max, 381-398; MAGIC_ENUM_RANGE_MAX is 128 (90-92). *)
Definition reflected_max (e : enumeration) (IsFlags : bool) : Z :=
  if IsFlags then (digits (e_under e) - 1)%Z
  else let lhs := 128%Z in
       let rhs := snd (limits (e_under e)) in
       if (lhs <? rhs)%Z then lhs else rhs.

(** value<E, O, IsFlags>(i), 406-415. *)
Definition value_at (IsFlags : bool) (O : Z) (i : nat) : Z :=
  if IsFlags then (2 ^ (Z.of_nat i + O))%Z else (Z.of_nat i + O)%Z.

(** values, 429-444 and 446-462: the valid values of the range in increasing order. *)
Definition values (e : enumeration) (IsFlags : bool) : list Z :=
  let min := reflected_min e IsFlags in
  let max := reflected_max e IsFlags in
  filter (is_valid e) (map (value_at IsFlags min) (seq 0 (Z.to_nat (max - min + 1)))).

(** The static_asserts at 453-458, and those about count_v > 0 (an array of no elements is
    ill-formed at 435): whether the instantiation of values compiles. *)
Definition values_compile (e : enumeration) (IsFlags : bool) : bool :=
  let min := reflected_min e IsFlags in
  let max := reflected_max e IsFlags in
  let range_size := (max - min + 1)%Z in
  let U_min := fst (limits (e_under e)) in
  let U_max := snd (limits (e_under e)) in
  negb ((U_min <? min)%Z && negb IsFlags && is_valid e (value_at IsFlags (min - 1) 0)) &&
  negb ((range_size <? U_max)%Z && negb IsFlags &&
        is_valid e (value_at IsFlags min (Z.to_nat (range_size + 1)))) &&
  (0 <? length (values e IsFlags)).

(** count_v, min_v, max_v, 464-477. *)
Definition count (e : enumeration) (IsFlags : bool) : nat := length (values e IsFlags).
Definition min_v (e : enumeration) (IsFlags : bool) : Z := hd 0%Z (values e IsFlags).
Definition max_v (e : enumeration) (IsFlags : bool) : Z := last (values e IsFlags) 0%Z.

(** range_size, 479-490.  Simplified: log2 (288-296) is that of the standard library. *)
Definition range_size (e : enumeration) (IsFlags : bool) : Z :=
  let max := if IsFlags then Z.log2 (max_v e IsFlags) else max_v e IsFlags in
  let min := if IsFlags then Z.log2 (min_v e IsFlags) else min_v e IsFlags in
  (max - min + 1)%Z.

(** index_t and invalid_index_v, 495-499. *)
Definition invalid_index (e : enumeration) (IsFlags : bool) : Z :=
  if (range_size e IsFlags <? umax 8)%Z then umax 8 else umax 16.

(** indexes, 501-511: the elements from the [k]-th on, [i] counts the valid ones. *)
Fixpoint indexes_loop (e : enumeration) (IsFlags : bool) (min : Z) (k size : nat) (i : Z)
  : list Z :=
  match size with
  | O => []
  | S size =>
      if is_valid e (value_at IsFlags min k)
      then i :: indexes_loop e IsFlags min (S k) size (i + 1)%Z
      else invalid_index e IsFlags :: indexes_loop e IsFlags min (S k) size i
  end.
Definition indexes (e : enumeration) (IsFlags : bool) : list Z :=
  let min := if IsFlags then Z.log2 (min_v e IsFlags) else min_v e IsFlags in
  indexes_loop e IsFlags min 0 (Z.to_nat (range_size e IsFlags)) 0%Z.

(** names, 513-521. *)
Definition names (e : enumeration) (IsFlags : bool) : list bytes := map (n e) (values e IsFlags).

(** is_sparse, 533-541. *)
Definition is_sparse (e : enumeration) (IsFlags : bool) : bool :=
  negb (range_size e IsFlags =? Z.of_nat (count e IsFlags))%Z.

(** Element of a std::array. *)
Definition element {A} (l : list A) (i : Z) : outcome A :=
  match nth_error l (Z.to_nat i) with
  | Some x => Done x
  | None => Fault OutOfBounds
  end.

(** a - b for two values of the underlying type, converted to size_t (549).  Types narrower
    than int are promoted to int, where no overflow is possible; an overflow of a signed type
    is undefined. *)
Definition signed_difference (bits a b : Z) : outcome Z :=
  let d := (a - b)%Z in
  if (smin bits <=? d)%Z && (d <=? smax bits)%Z then Done (d mod two64)%Z else Fault Overflow.
Definition difference (u : utype) (a b : Z) : outcome Z :=
  match u with
  | UInt CUInt => Done ((a - b) mod 2 ^ 32)%Z
  | UInt CULong => Done ((a - b) mod 2 ^ long_bits p)%Z
  | UInt CULLong => Done ((a - b) mod 2 ^ 64)%Z
  | UInt CLong => signed_difference (long_bits p) a b
  | UInt CLLong => signed_difference 64 a b
  | _ => signed_difference 32 a b
  end.

(** undex, 545-559.  The subtraction comes before the comparisons. *)
Definition undex (e : enumeration) (v : Z) : outcome Z :=
  i <- difference (e_under e) v (min_v e false) ;;
  if (min_v e false <=? v)%Z && (v <=? max_v e false)%Z then
    if is_sparse e false then
      idx <- element (indexes e false) i ;;
      Done (if (idx =? invalid_index e false)%Z then invalid_index e false else idx)
    else Done i
  else Done (invalid_index e false).

(** cmp_equal with a predicate, 243-272. *)
Fixpoint cmp_loop (pred : byte -> byte -> bool) (lhs rhs : bytes) : bool :=
  match lhs, rhs with
  | a :: lhs, b :: rhs => if pred a b then cmp_loop pred lhs rhs else false
  | _, _ => true
  end.
Definition cmp_equal (lhs rhs : bytes) (pred : byte -> byte -> bool) : bool :=
  if length lhs =? length rhs then cmp_loop pred lhs rhs else false.

(** * magic_enum *)

(** enum_value, 666-678 and 900-913. *)
Definition enum_value (e : enumeration) (IsFlags : bool) (index : nat) : outcome Z :=
  _ <- assert_ (index <? count e IsFlags) ;;
  if is_sparse e IsFlags then element (values e IsFlags) (Z.of_nat index)
  else
    let min := if IsFlags then Z.log2 (min_v e IsFlags) else min_v e IsFlags in
    Done (value_at IsFlags min index).

(** enum_name, 700-711. *)
Definition enum_name (e : enumeration) (v : Z) : outcome bytes :=
  i <- undex e v ;;
  if (i =? invalid_index e false)%Z then Done [] else element (names e false) i.

(** enum_cast from a name, 744-758: the loop from index [i] on. *)
Fixpoint cast_loop (e : enumeration) (s : bytes) (pred : byte -> byte -> bool) (i fuel : nat)
  : outcome (option Z) :=
  match fuel with
  | O => Done None
  | S fuel =>
      name <- element (names e false) (Z.of_nat i) ;;
      if cmp_equal s name pred then v <- enum_value e false i ;; Done (Some v)
      else cast_loop e s pred (S i) fuel
  end.
Definition enum_cast (e : enumeration) (s : bytes) (pred : byte -> byte -> bool)
  : outcome (option Z) := cast_loop e s pred 0 (count e false).

(** flags::enum_name, 923-946: the loop from index [i] on. *)
Fixpoint flags_name_loop (e : enumeration) (v : Z) (i fuel : nat) (name : bytes) (check_value : Z)
  : outcome (bytes * Z) :=
  match fuel with
  | O => Done (name, check_value)
  | S fuel =>
      w <- enum_value e true i ;;
      if negb (Z.land v w =? 0)%Z then
        m <- element (names e true) (Z.of_nat i) ;;
        let name := if length name =? 0 then name else name ++ lit "|" in
        flags_name_loop e v (S i) fuel (name ++ m) (Z.lor check_value w)
      else flags_name_loop e v (S i) fuel name check_value
  end.
Definition flags_enum_name (e : enumeration) (v : Z) : outcome bytes :=
  r <- flags_name_loop e v 0 (count e true) [] 0%Z ;;
  if negb (snd r =? 0)%Z && (snd r =? v)%Z then Done (fst r) else Done [].

(** * TypeSerializer<E> *)

(** The predicate at EnumSupport.h:31, in the C locale. *)
Definition pred (a b : byte) : bool :=
  (tolower (Z.of_N (uchar a)) =? tolower (Z.of_N (uchar b)))%Z.

(** utils::flatten, examples/common/Utils.h:8-21. *)
Fixpoint flatten_loop (strings : list bytes) (currentSeparator decorator separator ss : bytes)
  : bytes :=
  match strings with
  | [] => ss
  | s :: r => flatten_loop r separator decorator separator
                (ss ++ currentSeparator ++ decorator ++ s ++ decorator)
  end.
Definition flatten (strings : list bytes) (decorator : bytes) : bytes :=
  flatten_loop strings [] decorator (lit ", ") [].

(** Number of binary digits of a non-negative number. *)
Definition bit_length (z : Z) : Z := if (z <=? 0)%Z then 0%Z else (Z.log2 z + 1)%Z.

(** The values an enumeration without a fixed underlying type can have ([dcl.enum]): those of
    the narrowest integer type that has all enumerators, with at least one bit; a signed type
    if there is a negative enumerator. *)
Definition lowest (e : enumeration) : Z := fold_right Z.min 0%Z (map snd (e_decl e)).
Definition highest (e : enumeration) : Z := fold_right Z.max 0%Z (map snd (e_decl e)).
Definition enum_limits (e : enumeration) : Z * Z :=
  if (lowest e <? 0)%Z then
    let b := Z.max (bit_length (highest e)) (bit_length (- lowest e - 1)) in
    (- 2 ^ b, 2 ^ b - 1)%Z
  else (0, 2 ^ Z.max 1 (bit_length (highest e)) - 1)%Z.

(** static_cast<E>(z), EnumSupport.h:28, for a value of the underlying type ([expr.static.cast]): undefined if the
    underlying type is not fixed and the value is not one of the enumeration. *)
Definition static_cast (e : enumeration) (z : Z) : outcome Z :=
  if e_fixed e then Done z
  else if (fst (enum_limits e) <=? z)%Z && (z <=? snd (enum_limits e))%Z then Done z
  else Fault Overflow.

(** TypeSerializer<std::underlying_type_t<E>>::fromString, called at EnumSupport.h:27. *)
Definition underlying_fromString (u : utype) (input : value) : expected Z :=
  match u with
  | UBool =>
      match boolFromString (char_signed p) input with
      | Value b => Value (Z.b2z b)
      | Error m => Error m
      end
  | UInt t => from_value (int_serializer p nm t) input
  end.

(** TypeSerializer<E>::fromString, EnumSupport.h:21-39. *)
Definition fromString (e : enumeration) (input : value) : outcome (expected Z) :=
  match input with
  | [s] =>
      match underlying_fromString (e_under e) input with
      | Value z => v <- static_cast e z ;; Done (Value v)
      | Error _ =>
          optionalValue <- enum_cast e s pred ;;
          match optionalValue with
          | Some v => Done (Value v)
          | None =>
              let names := flatten (names e false) (lit "'") in
              Done (Error (createGenericError (e_type e) input
                             (lit "Possible values are [" ++ c_str names ++ lit "]")))
          end
      end
  | _ => Done (Error (createMismatchedSubvaluesError (e_type e) input 1))
  end.

(** TypeSerializer<E>::toString, EnumSupport.h:41-44. *)
Definition toString (e : enumeration) (v : Z) : outcome bytes := enum_name e v.

(** * Flags *)

(** TypeSerializer<std::vector<E>>::fromString, include/coil/StdLibCompat.h:46-60. *)
Fixpoint vector_loop (e : enumeration) (input : value) (rest : list bytes) (result : list Z)
  : outcome (expected (list Z)) :=
  match rest with
  | [] => Done (Value result)
  | s :: rest =>
      r <- fromString e [s] ;;
      match r with
      | Error m => Done (Error (createGenericError (lit "vector<" ++ e_type e ++ lit ">") input m))
      | Value v => vector_loop e input rest (result ++ [v])
      end
  end.

(** The loop of the setter, FlagsExample.cpp:57-59. *)
Definition combined (args : list Z) : Z := fold_left Z.lor args 0%Z.

(** What a command reports. *)
Inductive reply := Returned (t : bytes) | Failed (m : bytes) | WrongCount.

(** The overloads of flagsVariable, FlagsExample.cpp:47-67, called with the arguments of a
    command on the variable with value [v].  Simplified: the text of the error about the number
    of arguments is left to Exec.v. *)
Definition flags_call (e : enumeration) (v : Z) (args : list value) : outcome (Z * reply) :=
  match args with
  | [] => t <- flags_enum_name e v ;; Done (v, Returned t)
  | [input] =>
      r <- vector_loop e input input [] ;;
      match r with
      | Error m => Done (v, Failed m)
      | Value xs =>
          v <- static_cast e (combined xs) ;;
          t <- flags_enum_name e v ;;
          Done (v, Returned t)
      end
  | _ => Done (v, WrongCount)
  end.

(** A command text for a flags variable registered under [name].  [None] if the text is
    malformed or names another command. *)
Definition flags_text (e : enumeration) (name : bytes) (v : Z) (cmd : bytes)
  : outcome (option (Z * reply)) :=
  r <- parse_input (char_signed p) default_cfg cmd ;;
  match r with
  | Error _ => Done None
  | Value i =>
      if bytes_eqb (i_name i) name
      then r <- flags_call e v (i_args i) ;; Done (Some r)
      else Done None
  end.

Fixpoint flags_session (e : enumeration) (name : bytes) (v : Z) (cmds : list bytes)
  : outcome (Z * list (option reply)) :=
  match cmds with
  | [] => Done (v, [])
  | c :: cmds =>
      r <- flags_text e name v c ;;
      let '(v, a) := match r with Some (v, a) => (v, Some a) | None => (v, None) end in
      rest <- flags_session e name v cmds ;;
      Done (fst rest, a :: snd rest)
  end.

(** entity.draw, FlagsExample.cpp:76-85. *)
Definition draw (flags : Z) : list bytes :=
  let test (f : Z) (t : bytes) := if (Z.land flags f =? f)%Z then [t] else [] in
  test 1%Z (lit "Drawing bounding box") ++ test 2%Z (lit "Drawing origin") ++
  test 4%Z (lit "Drawing wireframe") ++ test 8%Z (lit "Drawing name").
End Enums.

(** * The enumerations of the examples *)

(** EnumsExample.cpp:17-31 and 58-63, FlagsExample.cpp:12-18.  ResetMode has no fixed underlying
    type; [u] is the compiler's choice. *)
Definition Ability : enumeration :=
  Enumeration (lit "PlayerAbilitySystem::Ability") (UInt CInt) true
    [(lit "None", 0%Z); (lit "SpeedBoost", 1%Z); (lit "IncreasedHealth", 2%Z)].
Definition ResetMode (u : utype) : enumeration :=
  Enumeration (lit "PlayerAbilitySystem::ResetMode") u false
    [(lit "Never", 0%Z); (lit "AfterDelay", 1%Z); (lit "AfterDeath", 2%Z)].
Definition VariableType : enumeration :=
  Enumeration (lit "VariableType") (UInt CInt) true
    [(lit "Integer", 0%Z); (lit "Float", 1%Z); (lit "String", 2%Z)].
Definition EntityDebugDrawFlags : enumeration :=
  Enumeration (lit "EntityDebugDrawFlags") (UInt CInt) true
    [(lit "DrawBoundingBox", 1%Z); (lit "DrawOrigin", 2%Z); (lit "DrawWireframe", 4%Z);
     (lit "DrawName", 8%Z)].
