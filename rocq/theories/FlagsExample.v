(** Model of examples/flags/FlagsExample.cpp: all functions and commands.  The serializer of the
    enumeration and magic_enum are those of Enums.v. *)
From Coq Require Import Ascii String NArith ZArith Bool PeanoNat List.
Import ListNotations.
From Verif Require Import Util Base Lexer StringConv Serializer UMap Exec Enums NamedExample ExampleSession.

(** The function objects that are registered, FlagsExample.cpp:75-85. *)
Inductive fn := FGet | FSet | FDraw.

(** operator| of EntityDebugDrawFlags, FlagsExample.cpp:20-24. *)
Definition flags_or (lhs rhs : Z) : Z := Z.lor lhs rhs.
(** operator&, FlagsExample.cpp:26-30. *)
Definition flags_and (lhs rhs : Z) : Z := Z.land lhs rhs.

Section Flags.
(** The platform, the names of integer types, and the name that magic_enum finds for
    EntityDebugDrawFlags (magic_enum.hpp:310-324), which depends on the compiler. *)
Variables (p : platform) (nm : naming) (flags_name : bytes).

Local Notation prog := (prog Z fn).

(** EntityDebugDrawFlags, FlagsExample.cpp:12-18. *)
Definition flags_enum : enumeration := Enumeration flags_name (UInt CInt) true (e_decl EntityDebugDrawFlags).

(** magic_enum::flags::enum_name for it.  It does not fault (C75_flags_print_iff). *)
Definition flags_string (v : Z) : bytes := match flags_enum_name p flags_enum v with Done t => t | Fault _ => [] end.

(** get of flagsVariable, FlagsExample.cpp:53. *)
Definition get : prog bytes := GetState (fun flags => Ret (flags_string flags)).

(** set of flagsVariable, FlagsExample.cpp:54-63. *)
Definition set (args : list Z) : prog bytes :=
  PutState (combined args) (GetState (fun flags => Ret (flags_string flags))).

(** One of the statements of entity.draw, FlagsExample.cpp:77-84. *)
Definition when_set (f : Z) (t : bytes) (k : prog unit) : prog unit :=
  GetState (fun flags => if (flags_and flags f =? f)%Z then LogLine t k else k).
(** entity.draw, FlagsExample.cpp:76-85. *)
Definition draw : prog unit :=
  when_set 1 (lit "Drawing bounding box") (when_set 2 (lit "Drawing origin")
    (when_set 4 (lit "Drawing wireframe") (when_set 8 (lit "Drawing name") (Ret tt)))).

(** The function objects of FlagsExample.cpp:75-85.  std::string is like coil::String. *)
Definition code (f : fn) : functor Z fn :=
  match f with
  | FGet => Functor false [] (RValue string_serializer) (fun _ => get)
  | FSet => Functor false [vector_serializer (enum_serializer p nm flags_enum)] (RValue string_serializer) (fun xs => set (fst xs))
  | FDraw => Functor true [] RVoid (fun _ => draw)
  end.

(** FlagsExample.cpp:75-85. *)
Definition commands : list (bytes * list fn) := [(lit "entity.flags", [FGet; FSet]); (lit "entity.draw", [FDraw])].

(** FlagsExample::run up to the first command, FlagsExample.cpp:69-85. *)
Definition initial : Z := flags_or 1 8.
Definition start (sg : bool) : outcome (state Z fn) := register sg (fresh_bindings sg initial) commands.

(** The texts that FlagsExample.cpp:88-106 execute. *)
Definition run (sg catching : bool) (d : nat) := session code (fun _ => None) sg catching d.
End Flags.
