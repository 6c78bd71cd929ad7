(** Model of examples/compound/CompoundExample.cpp: all functions and commands.  The serializers of
    its types are those of UserTypes.v. *)
From Coq Require Import Ascii String NArith ZArith Bool PeanoNat List.
Import ListNotations.
From Verif Require Import Util Base Lexer StringConv Serializer UMap Exec FloatConv FloatSerializer
  FloatOps FloatSum UserTypes NamedExample ExampleSession.

(** ParticleSystem::Particle, CompoundExample.cpp:50-55. *)
Record particle := Particle { pt_id : bytes; pt_position : fval * fval; pt_velocity : fval * fval }.

(** The objects of CompoundExample::run: ParticleSystem::m_particles, CompoundExample.cpp:83 and 131,
    and pivot, CompoundExample.cpp:143.  Simplified: the vector is a list and there is memory for it. *)
Record world := World { w_particles : list particle; w_pivot : fval * fval }.
(** Assignments to them, CompoundExample.cpp:59, 74 and 144. *)
Definition set_particles l w := World l (w_pivot w).
Definition set_pivot x w := World (w_particles w) x.

(** The function objects that are registered, CompoundExample.cpp:133-148. *)
Inductive fn := FAdd | FGet | FUpdate | FList | FPivotGet | FPivotSet | FSumAll | FArgOrPi.

(** The loop of ParticleSystem::get, CompoundExample.cpp:64-66. *)
Fixpoint find_particle (id : bytes) (l : list particle) : option particle :=
  match l with
  | [] => None
  | q :: l => if bytes_eqb (pt_id q) id then Some q else find_particle id l
  end.

(** The line of a particle in particles.list, CompoundExample.cpp:140: %s writes up to a NUL. *)
Definition particle_line (q : particle) : bytes :=
  c_str (pt_id q) ++ tab :: c_str (point_text (pt_position q)) ++ tab :: c_str (point_text (pt_velocity q)).

(** 3.14f, CompoundExample.cpp:148. *)
Definition nearly_pi : fval := Fin false 13170115 (-22).

Section Compound.
(** What strtof makes of tiny values; the names that typeid gives Point and Particle
    (examples/common/CustomTypeName.h:17-24); and the sign of the NaN that an invalid operation makes. *)
Variables (uf : bool) (point_name particle_name : bytes) (nan_sign : bool).

Local Notation prog := (prog world fn).

(** Point::operator+=, Point::operator*= and operator*, CompoundExample.cpp:18-37; without contraction
    to a fused operation. *)
Definition point_plus (v rhs : fval * fval) : fval * fval := (fadd nan_sign (fst v) (fst rhs), fadd nan_sign (snd v) (snd rhs)).
Definition point_times (v : fval * fval) (scalar : fval) : fval * fval := (fmul nan_sign (fst v) scalar, fmul nan_sign (snd v) scalar).

(** ParticleSystem::add, CompoundExample.cpp:57-60. *)
Definition add (id : bytes) (position velocity : fval * fval) : prog unit :=
  GetState (fun w => PutState (set_particles (w_particles w ++ [Particle id position velocity]) w) (Ret tt)).

(** ParticleSystem::get, CompoundExample.cpp:62-69.  The pointer is used at once, for the text of the
    result; it is the particle here. *)
Definition get (id : bytes) : prog (option particle) :=
  GetState (fun w => Ret (find_particle id (w_particles w))).

(** ParticleSystem::update, CompoundExample.cpp:71-75. *)
Definition step (dt : fval) (q : particle) : particle :=
  Particle (pt_id q) (point_plus (pt_position q) (point_times (pt_velocity q) dt)) (pt_velocity q).
Definition update (dt : fval) : prog unit :=
  GetState (fun w => PutState (set_particles (map (step dt) (w_particles w)) w) (Ret tt)).

(** particles.list, CompoundExample.cpp:136-141. *)
Fixpoint list_lines (l : list particle) : prog unit :=
  match l with
  | [] => Ret tt
  | q :: l => LogLine (particle_line q) (list_lines l)
  end.
Definition list_ : prog unit :=
  LogLine (lit "ID" ++ tab :: lit "Pos" ++ tab :: lit "Vel")
    (LogLine (lit "--" ++ tab :: lit "---" ++ tab :: lit "---")
      (GetState (fun w => list_lines (w_particles w)))).

(** sum_all, CompoundExample.cpp:146: std::accumulate with 0.0f. *)
Definition sum_all (numbers : list fval) : prog fval :=
  Ret (fold_left (fadd nan_sign) numbers (Fin false 0 (emin binary32))).

(** get_arg_or_pi, CompoundExample.cpp:148. *)
Definition get_arg_or_pi (arg : option fval) : prog fval :=
  Ret (match arg with Some x => x | None => nearly_pi end).

Local Notation Point := (point_serializer uf point_name).
(** TypeSerializer<ParticleSystem::Particle>, CompoundExample.cpp:115-124: there is no fromString, it
    is used for results only. *)
Definition particle_ser : serializer :=
  Ser particle particle_name (fun _ => Error [])
    (fun q => particle_text (pt_id q) (pt_position q) (pt_velocity q)).

(** The function objects of CompoundExample.cpp:133-148.  std::string and std::string_view have the
    same serializer in the model. *)
Definition code (f : fn) : functor world fn :=
  match f with
  | FAdd => Functor false [string_serializer; Point; Point] RVoid
              (fun xs => add (fst xs) (fst (snd xs)) (fst (snd (snd xs))))
  | FGet => Functor false [string_serializer] (RPointer particle_ser) (fun xs => get (fst xs))
  | FUpdate => Functor false [float_ser uf] RVoid (fun xs => update (fst xs))
  | FList => Functor true [] RVoid (fun _ => list_)
  | FPivotGet => variable_get Point w_pivot
  | FPivotSet => variable_set Point w_pivot set_pivot
  | FSumAll => Functor false [vector_serializer (float_ser uf)] (RValue (float_ser uf)) (fun xs => sum_all (fst xs))
  | FArgOrPi => Functor false [optional_serializer (float_ser uf)] (RValue (float_ser uf)) (fun xs => get_arg_or_pi (fst xs))
  end.

(** CompoundExample.cpp:133-148. *)
Definition commands : list (bytes * list fn) :=
  [(lit "particles.add", [FAdd]); (lit "particles.get", [FGet]); (lit "particles.update", [FUpdate]);
   (lit "particles.list", [FList]); (lit "pivot", [FPivotGet; FPivotSet]); (lit "sum_all", [FSumAll]);
   (lit "get_arg_or_pi", [FArgOrPi])].

(** CompoundExample::run up to the first command, CompoundExample.cpp:129-148. *)
Definition initial : world :=
  let zero := Fin false 0 (emin binary32) in World [] (zero, zero).
Definition start (sg : bool) : outcome (state world fn) := register sg (fresh_bindings sg initial) commands.

(** The texts that CompoundExample.cpp:150-191 execute. *)
Definition run (sg catching : bool) (d : nat) := session code (fun _ => None) sg catching d.
End Compound.
