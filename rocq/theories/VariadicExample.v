(** Model of examples/variadic/VariadicExample.cpp: a parameter of type coil::Value that is tried
    as a number and then as a text. *)
From Coq Require Import Ascii String NArith ZArith Bool PeanoNat List.
Import ListNotations.
From Verif Require Import Util Base Lexer StringConv Serializer UMap Exec NamedExample ExampleSession.

(** Entity, VariadicExample.cpp:12-16.  The names are bytes that std::string owns. *)
Record entity := Entity { e_id : Z; e_name : bytes }.
Definition set_name (n : bytes) (e : entity) : entity := Entity (e_id e) n.

(** The state of the program: Entities::m_entities, VariadicExample.cpp:76. *)
Local Notation world := (list entity).
Inductive fn := FRename | FList | FAdd.

(** getById and getByName, VariadicExample.cpp:21-35: the index of the first entity. *)
Fixpoint find_index (f : entity -> bool) (l : list entity) : option nat :=
  match l with
  | [] => None
  | e :: l => if f e then Some 0 else match find_index f l with Some i => Some (S i) | None => None end
  end.
Definition getById (l : list entity) (id : Z) : option nat := find_index (fun e => Z.eqb (e_id e) id) l.
Definition getByName (l : list entity) (name : bytes) : option nat :=
  find_index (fun e => bytes_eqb (e_name e) name) l.

(** Assignment through the pointer to the element that getById and getByName return,
    VariadicExample.cpp:21-35. *)
Fixpoint change (l : list entity) (i : nat) (f : entity -> entity) : list entity :=
  match l, i with
  | [], _ => []
  | e :: r, O => f e :: r
  | e :: r, S i => e :: change r i f
  end.

Section Variadic.
(** The platform, the names of integer types, and the type that std::size_t is. *)
Variables (p : platform) (nm : naming) (size_t : ctype).

(** VariadicExample.cpp:57-60. *)
Definition assign (entity : value) (newName : bytes) (target : option nat) : prog world fn unit :=
  match target with
  | Some i => GetState (fun l => PutState (change l i (set_name newName)) (Ret tt))
  | None => ReportError (lit "Failed to find entity '" ++ value_str entity ++ lit "'") (Ret tt)
  end.

(** Entities::rename, VariadicExample.cpp:37-61; Value::get is the serializer, Value.h:25-29. *)
Definition rename (entity : value) (newName : bytes) : prog world fn unit :=
  GetState (fun l =>
    match from_value (size_ser p nm size_t) entity with
    | Value id => assign entity newName (getById l id)
    | Error idError =>
        match from_value string_serializer entity with
        | Value name => assign entity newName (getByName l name)
        | Error nameError =>
            ReportError (lit "Unknown type of 'entity'") (ReportError idError (ReportError nameError (Ret tt)))
        end
    end).

(** Entities::list, VariadicExample.cpp:63-68. *)
Fixpoint list_lines (l : list entity) : prog world fn unit :=
  match l with
  | [] => Ret tt
  | e :: l => LogLine (printf_u (e_id e) ++ lit ": " ++ c_str (e_name e)) (list_lines l)
  end.
Definition list_ : prog world fn unit := LogLine (lit "Entities:") (GetState list_lines).

(** Entities::add, VariadicExample.cpp:70-73. *)
Definition add (id : Z) (name : bytes) : prog world fn unit :=
  GetState (fun l => PutState (l ++ [Entity id name]) (Ret tt)).

Definition code (f : fn) : functor world fn :=
  match f with
  | FRename => Functor true [value_serializer; string_serializer] RVoid (fun xs => rename (fst xs) (fst (snd xs)))
  | FList => Functor true [] RVoid (fun _ => list_)
  | FAdd => Functor false [size_ser p nm size_t; string_serializer] RVoid (fun xs => add (fst xs) (fst (snd xs)))
  end.

(** VariadicExample.cpp:85-87. *)
Definition commands : list (bytes * list fn) :=
  [(lit "entities.rename", [FRename]); (lit "entities.list", [FList]); (lit "entities.add", [FAdd])].

(** VariadicExample::run up to the first command, VariadicExample.cpp:80-87. *)
Definition start (sg : bool) : outcome (state world fn) := register sg (fresh_bindings sg []) commands.

(** The texts that VariadicExample.cpp:89-97 execute.  No handler has undefined behaviour of its own. *)
Definition run (sg catching : bool) (d : nat) := session code (fun _ => None) sg catching d.
End Variadic.
