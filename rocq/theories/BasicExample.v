(** Model of examples/basic/BasicExample.cpp: plain functions, functions with a context, lambdas and
    other function objects, and methods. *)
From Coq Require Import Ascii String NArith ZArith Bool PeanoNat List.
Import ListNotations.
From Verif Require Import Util Base Lexer StringConv Serializer UMap Exec FloatConv FloatSerializer FloatSum UserTypes
  NamedExample ExampleSession.

(** What was written to std::cout, and whether an operation on integers was undefined. *)
Record world := World { w_stdout : bytes; w_wrong : option fault }.

(** The function objects of BasicExample.cpp:12-86 and 102-110.  Object::m_multiplier,
    BasicExample.cpp:77, is never changed. *)
Inductive fn :=
| FHello | FHelloWithContext | FPrintRepeated | FPrintQuoted | FInvert | FAdd | FConcat
| FPlain | FLambda | FCustom | FStd | FScale (m_multiplier : Z).

Section Basic.
(** The platform; the names of integer types; what strtof makes of tiny values; the type that
    std::size_t is; and the sign of the NaN that an invalid operation makes. *)
Variables (p : platform) (nm : naming) (uf : bool) (size_t : ctype) (nan_sign : bool).

Local Notation prog := (prog world fn).

(** hello, BasicExample.cpp:12-15. *)
Definition hello : prog unit :=
  GetState (fun w => PutState (World (w_stdout w ++ lit "Hello, world!" ++ [newline]) (w_wrong w)) (Ret tt)).

(** helloWithContext, BasicExample.cpp:17-28. *)
Definition helloWithContext : prog unit :=
  Log (lit "log: no automatic") (Log (lit " line break" ++ [newline])
  (LogLine (lit "logline: line break is added automatically")
  (Log (lit "logf: " ++ c_str (lit "no") ++ lit " automatic")
  (Log (lit " line break, but " ++ c_str (lit "formatted" ++ [newline]))
  (LogLine (lit "loglinef: automatic line break and formatted") (Ret tt)))))).

(** printRepeated, BasicExample.cpp:30-34.  Simplified: there is memory for the output. *)
Fixpoint log_times (val : bytes) (n : nat) : prog unit :=
  match n with 0 => Ret tt | S n => Log val (log_times val n) end.
Definition printRepeated (val : bytes) (repetitions : Z) : prog unit := log_times val (Z.to_nat repetitions).

(** printQuoted, BasicExample.cpp:36-39; lengths above INT_MAX are not modelled. *)
Definition printQuoted (val : bytes) : prog unit := LogLine (lit "'" ++ c_str val ++ lit "'") (Ret tt).

(** invert, BasicExample.cpp:41-44. *)
Definition invert (val : bool) : prog bool := Ret (negb val).

(** add, BasicExample.cpp:46-49. *)
Definition add (a b : fval) : prog fval := Ret (fadd nan_sign a b).

(** concat, BasicExample.cpp:51-54. *)
Definition concat (a b : bytes) : prog bytes := Ret (a ++ b).

(** plainFunction, the lambda, CustomFunctor and the std::function, BasicExample.cpp:56-59, 80-86, 102
    and 104. *)
Definition introduce (who : bytes) (arg : Z) : prog bytes := Ret (lit "I am a " ++ who ++ lit ": " ++ printf_d arg).

(** Object::scale, BasicExample.cpp:71-74; int has 32 bits. *)
Definition scale (m_multiplier input : Z) : prog Z :=
  let z := (input * m_multiplier)%Z in
  if (- 2 ^ 31 <=? z)%Z && (z <? 2 ^ 31)%Z then Ret z
  else GetState (fun w => PutState (World (w_stdout w) (Some Overflow)) (Ret 0%Z)).

(** The function objects with their types, BasicExample.cpp:93-110. *)
Definition code (f : fn) : functor world fn :=
  match f with
  | FHello => Functor false [] RVoid (fun _ => hello)
  | FHelloWithContext => Functor true [] RVoid (fun _ => helloWithContext)
  | FPrintRepeated =>
      Functor true [string_serializer; size_ser p nm size_t] RVoid (fun xs => printRepeated (fst xs) (fst (snd xs)))
  | FPrintQuoted => Functor true [string_serializer] RVoid (fun xs => printQuoted (fst xs))
  | FInvert => Functor false [bool_ser p] (RValue (bool_ser p)) (fun xs => invert (fst xs))
  | FAdd => Functor false [float_ser uf; float_ser uf] (RValue (float_ser uf)) (fun xs => add (fst xs) (fst (snd xs)))
  | FConcat =>
      Functor false [string_serializer; string_serializer] (RValue string_serializer)
        (fun xs => concat (fst xs) (fst (snd xs)))
  | FPlain => Functor false [int_ser p nm] (RValue string_serializer) (fun xs => introduce (lit "function") (fst xs))
  | FLambda => Functor false [int_ser p nm] (RValue string_serializer) (fun xs => introduce (lit "lambda") (fst xs))
  | FCustom => Functor false [int_ser p nm] (RValue string_serializer) (fun xs => introduce (lit "custom functor") (fst xs))
  | FStd => Functor false [int_ser p nm] (RValue string_serializer) (fun xs => introduce (lit "std::function") (fst xs))
  | FScale m_multiplier => Functor false [int_ser p nm] (RValue (int_ser p nm)) (fun xs => scale m_multiplier (fst xs))
  end.

(** BasicExample.cpp:93-110. *)
Definition commands : list (bytes * list fn) :=
  [(lit "hello", [FHello]); (lit "hello_with_context", [FHelloWithContext]);
   (lit "print_repeated", [FPrintRepeated]); (lit "print_quoted", [FPrintQuoted]);
   (lit "invert", [FInvert]); (lit "add", [FAdd]); (lit "concat", [FConcat]);
   (lit "plain_function", [FPlain]); (lit "lambda", [FLambda]); (lit "custom_functor", [FCustom]);
   (lit "std_function", [FStd]); (lit "scaler1.scale", [FScale 2]); (lit "scaler2.scale", [FScale 10])].

(** BasicExample::run up to the first command, BasicExample.cpp:89-110. *)
Definition start (sg : bool) : outcome (state world fn) := register sg (fresh_bindings sg (World [] None)) commands.

(** The texts that BasicExample.cpp:112-152 execute. *)
Definition run (sg catching : bool) (d : nat) := session code w_wrong sg catching d.
End Basic.
