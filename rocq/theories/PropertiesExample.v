(** Model of examples/properties/PropertiesExample.cpp: properties with getters and setters. *)
From Coq Require Import Ascii String NArith ZArith Bool PeanoNat List.
Import ListNotations.
From Verif Require Import Util Base Lexer StringConv Serializer UMap Exec FloatConv FloatSerializer
  FloatOps UserTypes NamedExample ExampleSession.

(** The Window and the vector of PropertiesExample::run, PropertiesExample.cpp:13-14, 52; and whether
    a conversion to std::size_t was undefined. *)
Record world := World {
  w_width : Z;
  w_height : Z;
  w_data : list Z;
  w_wrong : option fault
}.
(** Assignments to the members of Window and to the vector, PropertiesExample.cpp:13-14 and 52. *)
Definition set_width n w := World n (w_height w) (w_data w) (w_wrong w).
Definition set_height n w := World (w_width w) n (w_data w) (w_wrong w).
Definition set_data l w := World (w_width w) (w_height w) l (w_wrong w).
Definition set_wrong w := World (w_width w) (w_height w) (w_data w) (Some Overflow).

(** The function objects that are registered; of a property, the getter and the setter ([true]). *)
Inductive fn :=
| FPrintSize | FAspect (set : bool) | FDiagonal (set : bool)
| FReadonlyAspect (set : bool) | FReadonlyDiagonal (set : bool)
| FData | FDataSize (set : bool).

Section Properties.
(** The platform; the names of integer types; what strtof makes of tiny values; the type that
    std::size_t is; the sign of the NaN that an invalid operation makes; the function hypotf; and
    what std::vector::resize throws when asked for this many elements, more than it has. *)
Variables (p : platform) (nm : naming) (uf : bool) (size_t : ctype) (nan_sign : bool).
Variable hypotf : fval -> fval -> fval.
Variable refuses : Z -> option bytes.

(** Window::getAspect, PropertiesExample.cpp:16-19: 1.0f * width is width converted to float. *)
Definition aspect (w : world) : fval := fdiv nan_sign (of_size (w_width w)) (of_size (w_height w)).

(** getWindowDiagonal, PropertiesExample.cpp:26-29. *)
Definition diagonal (w : world) : fval := hypotf (of_size (w_width w)) (of_size (w_height w)).

(** The getters as programs, PropertiesExample.cpp:16-19 and 26-29. *)
Definition get_aspect : prog world fn fval := GetState (fun w => Ret (aspect w)).
Definition get_diagonal : prog world fn fval := GetState (fun w => Ret (diagonal w)).

(** static_cast<std::size_t>(x), then [set]. *)
Definition assign_size (x : fval) (set : Z -> world -> world) (k : prog world fn unit) : prog world fn unit :=
  match to_size p size_t x with
  | Some n => GetState (fun w => PutState (set n w) k)
  | None => GetState (fun w => PutState (set_wrong w) (Ret tt))
  end.

(** Window::setAspect, PropertiesExample.cpp:20-23. *)
Definition set_aspect (x : fval) : prog world fn unit :=
  GetState (fun w => assign_size (fmul nan_sign x (of_size (w_height w))) set_width (Ret tt)).

(** setWindowDiagonal, PropertiesExample.cpp:31-36. *)
Definition set_diagonal (x : fval) : prog world fn unit :=
  GetState (fun w =>
    let scale := fdiv nan_sign x (diagonal w) in
    assign_size (fmul nan_sign (of_size (w_width w)) scale) set_width
      (assign_size (fmul nan_sign (of_size (w_height w)) scale) set_height (Ret tt))).

(** PropertiesExample.cpp:45. *)
Definition print_size : prog world fn unit :=
  GetState (fun w => LogLine (printf_u (w_width w) ++ lit "x" ++ printf_u (w_height w)) (Ret tt)).

(** PropertiesExample.cpp:53-58. *)
Fixpoint log_values (l : list Z) (k : prog world fn unit) : prog world fn unit :=
  match l with [] => k | z :: l => Log (printf_d z ++ lit " ") (log_values l k) end.
Definition print_data : prog world fn unit :=
  GetState (fun w => Log (lit "{ ") (log_values (w_data w) (Log (lit "}") (Ret tt)))).

(** PropertiesExample.cpp:59.  Simplified: whether resize gets the memory depends on the new size
    only. *)
Definition get_size : prog world fn Z := GetState (fun w => Ret (Z.of_nat (length (w_data w)))).
Definition resize (n : Z) : prog world fn unit :=
  GetState (fun w =>
    let k := length (w_data w) in
    if (n <=? Z.of_nat k)%Z then PutState (set_data (firstn (Z.to_nat n) (w_data w)) w) (Ret tt)
    else match refuses n with
         | Some what => Throw (StdException what)
         | None => PutState (set_data (w_data w ++ repeat 0%Z (Z.to_nat n - k)) w) (Ret tt)
         end).

(** The first or the second of the functions that coil::property makes. *)
Definition half (l : list (functor world fn)) (set : bool) : functor world fn :=
  nth (if set then 1 else 0) l (Functor false [] RVoid (fun _ => Ret tt)).

(** The function objects of PropertiesExample.cpp:45-59. *)
Definition code (f : fn) : functor world fn :=
  match f with
  | FPrintSize => Functor true [] RVoid (fun _ => print_size)
  | FAspect b => half (property (float_ser uf) get_aspect set_aspect) b
  | FDiagonal b => half (property (float_ser uf) get_diagonal set_diagonal) b
  | FReadonlyAspect b => half (const_bound_property (float_ser uf) get_aspect) b
  | FReadonlyDiagonal b => half (const_bound_property (float_ser uf) get_diagonal) b
  | FData => Functor true [] RVoid (fun _ => print_data)
  | FDataSize b => half (property (size_ser p nm size_t) get_size resize) b
  end.

(** PropertiesExample.cpp:45-59. *)
Definition commands : list (bytes * list fn) :=
  [(lit "window.print_size", [FPrintSize]);
   (lit "window.aspect", [FAspect false; FAspect true]);
   (lit "window.diagonal", [FDiagonal false; FDiagonal true]);
   (lit "window.readonly_aspect", [FReadonlyAspect false; FReadonlyAspect true]);
   (lit "window.readonly_diagonal", [FReadonlyDiagonal false; FReadonlyDiagonal true]);
   (lit "data", [FData]);
   (lit "data.size", [FDataSize false; FDataSize true])].

(** PropertiesExample::run up to the first command, PropertiesExample.cpp:39-59. *)
Definition initial : world := World 1920 1080 [3; 1; 4]%Z None.
Definition start (sg : bool) : outcome (state world fn) := register sg (fresh_bindings sg initial) commands.

(** The texts that PropertiesExample.cpp:61-78 execute. *)
Definition run (sg catching : bool) (d : nat) := session code w_wrong sg catching d.
End Properties.
