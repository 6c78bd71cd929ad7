(** Model of examples/overloading/OverloadingExample.cpp: several functions for one command. *)
From Coq Require Import Ascii String NArith ZArith Bool PeanoNat List.
Import ListNotations.
From Verif Require Import Util Base Lexer StringConv Serializer UMap Exec FloatConv FloatSerializer UserTypes
  NamedExample ExampleSession.

(** The function objects.  Object::m_name, OverloadingExample.cpp:41, is never changed, so that the
    pointers which coil::bind stores are represented by it. *)
Inductive fn :=
| FFunc1 | FFunc2 | FFunc3
| FLambda | FObjectFunc1 (m_name : bytes) | FObjectFunc2 (m_name : bytes)
| FCreateExplosion | FCreateExplosionRadius.

Section Overloading.
(** The platform, the names of integer types, and what strtof makes of tiny values. *)
Variables (p : platform) (nm : naming) (uf : bool).

(** The commands have no state. *)
Local Notation prog := (prog unit fn).

(** createExplosion, OverloadingExample.cpp:44-47.  The precision of %.*s is the length, so that the
    text ends there or at the first NUL; lengths above INT_MAX are not modelled. *)
Definition createExplosion (id : bytes) : prog unit :=
  LogLine (lit "Creating an explosion '" ++ c_str id ++ lit "' with the default radius") (Ret tt).

(** createExplosion, OverloadingExample.cpp:49-52; the float becomes a double, which is exact. *)
Definition createExplosionRadius (id : bytes) (radius : fval) : prog unit :=
  LogLine (lit "Creating an explosion '" ++ c_str id ++ lit "' with the radius " ++ printf_f radius) (Ret tt).

(** func1, func2, func3, the lambda, Object::func1 and Object::func2, OverloadingExample.cpp:11-24,
    31-38 and 76. *)
Definition code (f : fn) : functor unit fn :=
  match f with
  | FFunc1 => Functor false [] (RValue string_serializer) (fun _ => Ret (lit "func1"))
  | FFunc2 => Functor false [int_ser p nm] (RValue string_serializer) (fun _ => Ret (lit "func2"))
  | FFunc3 => Functor false [int_ser p nm; float_ser uf] (RValue string_serializer) (fun _ => Ret (lit "func3"))
  | FLambda => Functor false [] (RCString nm) (fun _ => Ret (Some (lit "lambda1")))
  | FObjectFunc1 m_name =>
      Functor false [string_serializer; float_ser uf] (RValue string_serializer)
        (fun _ => Ret (lit "Object::func1 from " ++ m_name))
  | FObjectFunc2 m_name =>
      Functor false [string_serializer; float_ser uf; bool_ser p] (RValue string_serializer)
        (fun _ => Ret (lit "Object::func2 from " ++ m_name))
  | FCreateExplosion => Functor true [string_serializer] RVoid (fun xs => createExplosion (fst xs))
  | FCreateExplosionRadius =>
      Functor true [string_serializer; float_ser uf] RVoid (fun xs => createExplosionRadius (fst xs) (fst (snd xs)))
  end.

(** OverloadingExample.cpp:72-80. *)
Definition commands : list (bytes * list fn) :=
  [(lit "func", [FFunc1; FFunc2; FFunc3]);
   (lit "mixed_func", [FLambda; FFunc2; FObjectFunc1 (lit "object_one"); FObjectFunc2 (lit "object_two")]);
   (lit "explosions.create", [FCreateExplosion; FCreateExplosionRadius])].

(** OverloadingExample::run up to the first command, OverloadingExample.cpp:68-80. *)
Definition start (sg : bool) : outcome (state unit fn) := register sg (fresh_bindings sg tt) commands.

(** Its commands, OverloadingExample.cpp:82-97; no handler has undefined behaviour of its own. *)
Definition run (sg catching : bool) (d : nat) := session code (fun _ => None) sg catching d.
End Overloading.
