(** Model of the serializers of float, double and long double. *)
From Coq Require Import Ascii String ZArith List.
Import ListNotations.
From Verif Require Import Base Serializer FloatConv.

Inductive ftype := TFloat | TDouble | TLongDouble.

(** The format of a type.  That of long double depends on the compiler. *)
Definition format (long_double : fmt) (t : ftype) : fmt :=
  match t with TFloat => binary32 | TDouble => binary64 | TLongDouble => long_double end.

(** TypeName<T>::name, src/Coil.cpp:640-642. *)
Definition float_name (t : ftype) : bytes :=
  match t with TFloat => lit "float" | TDouble => lit "double" | TLongDouble => lit "long double" end.

(** DEFINE_ARITHMETIC_TYPE_SERIALIZER for the floating-point types, src/Coil.cpp:499-522.
    [uf]: whether strtod and its siblings report inexact tiny results as range errors. *)
Definition float_serializer (long_double : fmt) (uf : bool) (t : ftype) : serializer :=
  arith_serializer (float_name t) (floatFromString (format long_double t) uf) toStringF.
