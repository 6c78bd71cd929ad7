(** Model of examples/variables/VariablesExample.cpp: commands bound to variables. *)
From Coq Require Import Ascii String NArith ZArith Bool PeanoNat List.
Import ListNotations.
From Verif Require Import Util Base Lexer StringConv Serializer UMap Exec FloatConv FloatSerializer UserTypes Enums
  NamedExample ExampleSession.

(** The variables of VariablesExample::run, VariablesExample.cpp:45-48. *)
Record world := World {
  w_scale : fval;
  w_city : bytes;
  w_type : Z;
  w_god : bool
}.
(** Assignments to timeScale, city, type and godMode, VariablesExample.cpp:45-48, through the pointers
    that coil::variable and toggle keep. *)
Definition set_scale x w := World x (w_city w) (w_type w) (w_god w).
Definition set_city s w := World (w_scale w) s (w_type w) (w_god w).
Definition set_type z w := World (w_scale w) (w_city w) z (w_god w).
Definition set_god b w := World (w_scale w) (w_city w) (w_type w) b.

(** The function objects that are registered; of a variable, the one that reads and the one that
    assigns ([true]). *)
Inductive fn :=
| FScale (set : bool) | FCity (set : bool) | FType (set : bool) | FGodVar (set : bool)
| FToggle (set : bool) | FPrint.

(** VariablesExample.cpp:12-17, with the name that typeid gives the enumeration
    (examples/common/CustomTypeName.h:17-24). *)
Definition Type_ (type_name : bytes) : enumeration :=
  Enumeration type_name (UInt CInt) true [(lit "Type1", 0%Z); (lit "Type2", 1%Z); (lit "Type3", 2%Z)].

Section Variables_.
(** The platform; the names of integer types; what strtof makes of tiny values; and the name of the
    enumeration. *)
Variables (p : platform) (nm : naming) (uf : bool).
Variable type_name : bytes.

Local Notation prog := (prog world fn).

(** toggle, VariablesExample.cpp:25-38. *)
Definition toggler : prog bool :=
  GetState (fun w => PutState (set_god (negb (w_god w)) w) (GetState (fun w => Ret (w_god w)))).
Definition setter (val : bool) : prog bool :=
  GetState (fun w => PutState (set_god val w) (GetState (fun w => Ret (w_god w)))).
Definition toggle : list (functor world fn) :=
  [Functor false [] (RValue (bool_ser p)) (fun _ => toggler);
   Functor false [bool_ser p] (RValue (bool_ser p)) (fun xs => setter (fst xs))].

(** VariablesExample.cpp:56-59.  Simplified: "%.*s" with precision 0 and the null pointer of an empty
    view writes nothing. *)
Definition print_variables : prog unit :=
  GetState (fun w => LogLine (lit "Time scale: " ++ printf_f (w_scale w) ++ lit ", city: " ++ c_str (w_city w) ++
    lit ", type: " ++ enum_name_text p (Type_ type_name) (w_type w)) (Ret tt)).

(** The first or the second of the functions that coil::variable (include/coil/Bindings.h) or toggle,
    VariablesExample.cpp:25-38, makes. *)
Definition half (l : list (functor world fn)) (set : bool) : functor world fn :=
  nth (if set then 1 else 0) l (Functor false [] RVoid (fun _ => Ret tt)).

(** The function objects of VariablesExample.cpp:50-59. *)
Definition code (f : fn) : functor world fn :=
  match f with
  | FScale b => half (variable (float_ser uf) w_scale set_scale) b
  | FCity b => half (variable string_serializer w_city set_city) b
  | FType b => half (variable (enum_serializer p nm (Type_ type_name)) w_type set_type) b
  | FGodVar b => half (variable (bool_ser p) w_god set_god) b
  | FToggle b => half toggle b
  | FPrint => Functor true [] RVoid (fun _ => print_variables)
  end.

(** VariablesExample.cpp:50-59. *)
Definition commands : list (bytes * list fn) :=
  [(lit "time_scale", [FScale false; FScale true]); (lit "city", [FCity false; FCity true]);
   (lit "type", [FType false; FType true]); (lit "god_var", [FGodVar false; FGodVar true]);
   (lit "god_toggle", [FToggle false; FToggle true]); (lit "print_variables", [FPrint])].

(** VariablesExample::run up to the first command, VariablesExample.cpp:41-59: 1.0f, Moscow, Type2
    and false. *)
Definition initial : world := World (Fin false 8388608 (-23)) (lit "Moscow") 1 false.
Definition start (sg : bool) : outcome (state world fn) := register sg (fresh_bindings sg initial) commands.

(** The texts that VariablesExample.cpp:61-83 execute. *)
Definition run (sg catching : bool) (d : nat) := session code (fun _ => None) sg catching d.
End Variables_.
