(** Model of examples/usertypes/UsertypesExample.cpp: all functions and commands.  The serializers
    of its types are those of UserTypes.v. *)
From Coq Require Import Ascii String NArith ZArith Bool PeanoNat List.
Import ListNotations.
From Verif Require Import Util Base Lexer StringConv Serializer UMap Exec FloatConv FloatSerializer
  FloatOps FloatSum UserTypes NamedExample ExampleSession.

(** The objects of UsertypesExample::run: Entities::m_entityNames and Entities::focusedEntity,
    UsertypesExample.cpp:88-91; spawnedParticle, UsertypesExample.cpp:209-214; and whether a sum
    overflowed.  Simplified: the vector is a list and there is memory for it. *)
Record world := World {
  w_names : list bytes;
  w_focus : Z;
  w_pos : fval * fval;
  w_vel : fval * fval;
  w_wrong : option fault
}.
(** Assignments to them, UsertypesExample.cpp:69, 82-86, 206, 215 and 217. *)
Definition set_names l w := World l (w_focus w) (w_pos w) (w_vel w) (w_wrong w).
Definition set_focus i w := World (w_names w) i (w_pos w) (w_vel w) (w_wrong w).
Definition set_pos x w := World (w_names w) (w_focus w) x (w_vel w) (w_wrong w).
Definition set_particle x v w := World (w_names w) (w_focus w) x v (w_wrong w).
Definition set_wrong f w := World (w_names w) (w_focus w) (w_pos w) (w_vel w) (Some f).

(** The function objects that are registered, UsertypesExample.cpp:204-219. *)
Inductive fn :=
| FAdd | FFind | FFocusGet | FFocusSet | FRemoveSome | FSpawn | FGetPosAt | FPosGet | FPosSet | FSum.

(** std::find with std::distance, UsertypesExample.cpp:75-77: the index of the first equal element. *)
Fixpoint index_of (name : bytes) (l : list bytes) : option nat :=
  match l with
  | [] => None
  | n :: l => if bytes_eqb n name then Some 0 else match index_of name l with Some i => Some (S i) | None => None end
  end.

(** erase of what std::remove leaves at the end, UsertypesExample.cpp:85. *)
Definition erase_all (l : list bytes) (name : bytes) : list bytes := filter (fun n => negb (bytes_eqb n name)) l.

Section Usertypes.
(** The platform; the names of integer types; what strtof makes of tiny values; the type that
    std::size_t is; and the sign of the NaN that an invalid operation makes. *)
Variables (p : platform) (nm : naming) (uf : bool) (size_t : ctype) (nan_sign : bool).

Local Notation prog := (prog world fn).

(** Entities::add, UsertypesExample.cpp:66-71. *)
Definition add (name : bytes) : prog Z :=
  GetState (fun w =>
    let newId := Z.of_nat (length (w_names w)) in
    PutState (set_names (w_names w ++ [name]) w) (Ret newId)).

(** Entities::find, UsertypesExample.cpp:73-80. *)
Definition find (name : bytes) : prog (option Z) :=
  GetState (fun w => Ret (option_map Z.of_nat (index_of name (w_names w)))).

(** Entities::removeSome, UsertypesExample.cpp:82-86. *)
Definition removeSome (names : list bytes) : prog unit :=
  GetState (fun w => PutState (set_names (fold_left erase_all names (w_names w)) w) (Ret tt)).

(** Vec2::operator* and Vec2::operator+, UsertypesExample.cpp:26-34; without contraction to a fused
    operation. *)
Definition vec_times (v : fval * fval) (t : fval) : fval * fval := (fmul nan_sign (fst v) t, fmul nan_sign (snd v) t).
Definition vec_plus (v rhs : fval * fval) : fval * fval := (fadd nan_sign (fst v) (fst rhs), fadd nan_sign (snd v) (snd rhs)).

(** particles.spawn and particles.get_pos_at, UsertypesExample.cpp:215-216. *)
Definition spawn (pos vel : fval * fval) : prog unit :=
  GetState (fun w => PutState (set_particle pos vel w) (Ret tt)).
Definition get_pos_at (t : fval) : prog (fval * fval) :=
  GetState (fun w => Ret (vec_plus (w_pos w) (vec_times (w_vel w) t))).

(** sum, UsertypesExample.cpp:219. *)
Definition sum (values : list Z) : prog Z :=
  match sum_all values with
  | Done z => Ret z
  | Fault f => GetState (fun w => PutState (set_wrong f w) (Ret 0%Z))
  end.

Local Notation Vec2 := (vec2_serializer uf).
Local Notation EntityId := (entity_serializer p nm size_t).

(** The function objects of UsertypesExample.cpp:204-219. *)
Definition code (f : fn) : functor world fn :=
  match f with
  | FAdd => Functor false [string_serializer] (RValue EntityId) (fun xs => add (fst xs))
  | FFind => Functor false [string_serializer] (RValue (optional_serializer EntityId)) (fun xs => find (fst xs))
  | FFocusGet => variable_get EntityId w_focus
  | FFocusSet => variable_set EntityId w_focus set_focus
  | FRemoveSome => Functor false [array_serializer string_serializer] RVoid (fun xs => removeSome (fst xs))
  | FSpawn => Functor false [Vec2; Vec2] RVoid (fun xs => spawn (fst xs) (fst (snd xs)))
  | FGetPosAt => Functor false [float_ser uf] (RValue Vec2) (fun xs => get_pos_at (fst xs))
  | FPosGet => variable_get Vec2 w_pos
  | FPosSet => variable_set Vec2 w_pos set_pos
  | FSum => Functor false [array_serializer (int_ser p nm)] (RValue (int_ser p nm)) (fun xs => sum (fst xs))
  end.

(** UsertypesExample.cpp:204-219. *)
Definition commands : list (bytes * list fn) :=
  [(lit "entities.add", [FAdd]); (lit "entities.find", [FFind]);
   (lit "entities.focused_entity", [FFocusGet; FFocusSet]); (lit "entities.remove_some", [FRemoveSome]);
   (lit "particles.spawn", [FSpawn]); (lit "particles.get_pos_at", [FGetPosAt]);
   (lit "particles.last_particle_pos", [FPosGet; FPosSet]); (lit "sum", [FSum])].

(** UsertypesExample::run up to the first command, UsertypesExample.cpp:201-219. *)
Definition initial : world :=
  let zero := Fin false 0 (emin binary32) in World [] 0 (zero, zero) (zero, zero) None.
Definition start (sg : bool) : outcome (state world fn) := register sg (fresh_bindings sg initial) commands.

(** The texts that UsertypesExample.cpp:221-241 execute. *)
Definition run (sg catching : bool) (d : nat) := session code w_wrong sg catching d.
End Usertypes.
