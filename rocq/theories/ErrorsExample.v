(** Model of examples/errors/ErrorsExample.cpp: errors reported and thrown by commands. *)
From Coq Require Import Ascii String NArith ZArith Bool PeanoNat List.
Import ListNotations.
From Verif Require Import Util Base Lexer StringConv Serializer UMap Exec FloatConv FloatSerializer UserTypes
  NamedExample ExampleSession.

(** The functions, ErrorsExample.cpp:12-81. *)
Inductive fn := FSqrtContext | FSqrtExcept | FGetFloat | FGetTypeName | FTestNamedArgs.

(** value < 0.0f, ErrorsExample.cpp:14 and 25: neither -0.0f nor NaN is. *)
Definition below_zero (x : fval) : bool :=
  match x with
  | Fin neg m _ => neg && negb (m =? 0)%Z
  | Inf neg => neg
  | NaN _ => false
  end.
(** 0.0f, ErrorsExample.cpp:17 and 38. *)
Definition zero_float : fval := Fin false 0 (-149).

Section Errors.
(** The platform; the names of integer types; what strtof makes of tiny values; and std::sqrt of
    float. *)
Variables (p : platform) (nm : naming) (uf : bool).
Variable sqrtf : fval -> fval.

(** The commands have no state. *)
Local Notation prog := (prog unit fn).

(** sqrtWithContext, ErrorsExample.cpp:12-21. *)
Definition sqrt_context (x : fval) : prog fval :=
  if below_zero x then ReportError (lit "Value should be non-negative!") (Ret zero_float) else Ret (sqrtf x).

(** sqrtWithExceptions, ErrorsExample.cpp:23-29. *)
Definition sqrt_except (x : fval) : prog fval :=
  if below_zero x then Throw (StdException (lit "Value should be non-negative!")) else Ret (sqrtf x).

(** getFloat, ErrorsExample.cpp:31-39. *)
Definition get_float (arg : value) : prog fval :=
  match from_value (float_ser uf) arg with
  | Value x => Ret x
  | Error e => ReportError e (Ret zero_float)
  end.

(** getTypeName, ErrorsExample.cpp:41-53. *)
Definition get_type_name (arg : value) : prog bytes :=
  match from_value (bool_ser p) arg with
  | Value _ => Ret (lit "bool")
  | Error e1 =>
      match from_value (int_ser p nm) arg with
      | Value _ => Ret (lit "int")
      | Error e2 =>
          match from_value (float_ser uf) arg with
          | Value _ => Ret (lit "float")
          | Error e3 => ReportError (lit "Unknown type") (ReportError e1 (ReportError e2 (ReportError e3 (Ret []))))
          end
      end
  end.

(** testNamedArgs, ErrorsExample.cpp:55-81. *)
Definition test_named_args : prog unit :=
  getOrReport (lit "any_arg") true (fun any =>
  match any with
  | None => Ret tt
  | Some v =>
      getOrReport_as (float_ser uf) (lit "float_arg") true None (fun f =>
      match f with
      | None => Ret tt
      | Some x =>
          getOrReport_as (int_ser p nm) (lit "int_arg") false None (fun i =>
          HasErrors (fun bad =>
            if bad then Ret tt
            else Log (c_str (value_str v) ++ lit ", " ++ printf_g x)
              match i with None => Ret tt | Some z => Log (lit ", " ++ printf_d z) (Ret tt) end))
      end)
  end).

(** The function objects of ErrorsExample.cpp:88-92. *)
Definition code (f : fn) : functor unit fn :=
  match f with
  | FSqrtContext => Functor true [float_ser uf] (RValue (float_ser uf)) (fun xs => sqrt_context (fst xs))
  | FSqrtExcept => Functor false [float_ser uf] (RValue (float_ser uf)) (fun xs => sqrt_except (fst xs))
  | FGetFloat => Functor true [value_serializer] (RValue (float_ser uf)) (fun xs => get_float (fst xs))
  | FGetTypeName => Functor true [value_serializer] (RValue string_serializer) (fun xs => get_type_name (fst xs))
  | FTestNamedArgs => Functor true [] RVoid (fun _ => test_named_args)
  end.

(** ErrorsExample.cpp:88-92. *)
Definition commands : list (bytes * list fn) :=
  [(lit "sqrt_context", [FSqrtContext]); (lit "sqrt_except", [FSqrtExcept]); (lit "get_float", [FGetFloat]);
   (lit "get_type_name", [FGetTypeName]); (lit "test_named_args", [FTestNamedArgs])].

(** ErrorsExample::run up to the first command, ErrorsExample.cpp:84-92. *)
Definition start (sg : bool) : outcome (state unit fn) := register sg (fresh_bindings sg tt) commands.

(** The texts that ErrorsExample.cpp:94-127 execute. *)
Definition run (sg catching : bool) (d : nat) := session code (fun _ => None) sg catching d.
End Errors.
