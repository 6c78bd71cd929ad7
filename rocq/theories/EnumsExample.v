(** Model of examples/enums/EnumsExample.cpp: all functions and commands.  The serializer of
    enumerations and magic_enum are those of Enums.v. *)
From Coq Require Import Ascii String NArith ZArith Bool PeanoNat List.
Import ListNotations.
From Verif Require Import Util Base Lexer StringConv Serializer UMap Exec Enums NamedExample ExampleSession.

(** The objects of EnumsExample::run: PlayerAbilitySystem::m_ability and m_resetMode,
    EnumsExample.cpp:48-49 and 56, and variableType, EnumsExample.cpp:65. *)
Record world := World { w_ability : Z; w_reset : Z; w_type : Z }.

(** The function objects that are registered, EnumsExample.cpp:67-70. *)
Inductive fn := FSetAbility | FGetAbility | FGetReset | FTypeGet | FTypeSet.

Section Example.
(** The platform, the names of integer types, the names that magic_enum finds for the enumerations
    (magic_enum.hpp:310-324), and the underlying type of ResetMode, which the compiler chooses. *)
Variables (p : platform) (nm : naming) (ability_name reset_name type_name : bytes) (under : ctype).

Local Notation prog := (prog world fn).

(** EnumsExample.cpp:17-31 and 58-63. *)
Definition ability_enum : enumeration := Enumeration ability_name (UInt CInt) true (e_decl Ability).
Definition reset_enum : enumeration := Enumeration reset_name (UInt under) false (e_decl (ResetMode (UInt under))).
Definition type_enum : enumeration := Enumeration type_name (UInt CInt) true (e_decl VariableType).

(** The serializer of ResetMode where every value of the underlying type can be converted.  Where
    the conversion at EnumSupport.h:28 is undefined, [run] stops before. *)
Definition reset_ser : serializer := enum_serializer p nm (Enumeration reset_name (UInt under) true (e_decl reset_enum)).

(** PlayerAbilitySystem::setAbility, EnumsExample.cpp:33-37. *)
Definition setAbility (ability resetMode : Z) : prog unit :=
  GetState (fun w => PutState (World ability (w_reset w) (w_type w))
    (GetState (fun w => PutState (World (w_ability w) resetMode (w_type w)) (Ret tt)))).
(** PlayerAbilitySystem::getAbility, EnumsExample.cpp:38-41. *)
Definition getAbility : prog Z := GetState (fun w => Ret (w_ability w)).
(** PlayerAbilitySystem::getResetMode, EnumsExample.cpp:42-45. *)
Definition getResetMode : prog Z := GetState (fun w => Ret (w_reset w)).

(** Assignment to variableType, EnumsExample.cpp:65, by the setter of coil::variable, 70. *)
Definition set_type (x : Z) (w : world) : world := World (w_ability w) (w_reset w) x.

Local Notation ability_ser := (enum_serializer p nm ability_enum).
Local Notation type_ser := (enum_serializer p nm type_enum).

(** The function objects of EnumsExample.cpp:67-70. *)
Definition code (f : fn) : functor world fn :=
  match f with
  | FSetAbility => Functor false [ability_ser; reset_ser] RVoid (fun xs => setAbility (fst xs) (fst (snd xs)))
  | FGetAbility => Functor false [] (RValue ability_ser) (fun _ => getAbility)
  | FGetReset => Functor false [] (RValue reset_ser) (fun _ => getResetMode)
  | FTypeGet => variable_get type_ser w_type
  | FTypeSet => variable_set type_ser w_type set_type
  end.

(** EnumsExample.cpp:67-70. *)
Definition commands : list (bytes * list fn) :=
  [(lit "abilities.set_ability", [FSetAbility]); (lit "abilities.get_ability", [FGetAbility]);
   (lit "abilities.get_reset_mode", [FGetReset]); (lit "variable_type", [FTypeGet; FTypeSet])].

(** EnumsExample::run up to the first command, EnumsExample.cpp:53-70. *)
Definition initial : world := World 0 0 2.
Definition start (sg : bool) : outcome (state world fn) := register sg (fresh_bindings sg initial) commands.

(** The conversion of the second argument of abilities.set_ability, whether or not the first one can
    be converted: FunctorCaller.h:42 and EnumSupport.h:21-39.  With another number of
    arguments nothing is converted. *)
Definition conversions (i : expected input) : outcome unit :=
  match i with
  | Value i =>
      if bytes_eqb (i_name i) (lit "abilities.set_ability") then
        match i_args i with
        | [_; mode] => _ <- fromString p nm reset_enum mode ;; Done tt
        | _ => Done tt
        end
      else Done tt
  | Error _ => Done tt
  end.

(** The texts that EnumsExample.cpp:73-86 execute.  The lexer is never replaced. *)
Fixpoint run (sg catching : bool) (d : nat) (s : state world fn) (lines : list bytes)
  : outcome (state world fn * list result) :=
  match lines with
  | [] => Done (s, [])
  | c :: lines =>
      i <- parse_input sg default_cfg c ;;
      _ <- conversions i ;;
      r <- session code (fun _ => None) sg catching d s [c] ;;
      q <- run sg catching d (fst r) lines ;;
      Done (fst q, snd r ++ snd q)
  end.
End Example.
