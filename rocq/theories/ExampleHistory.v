(** Specification: how a part of the state develops in a dialogue. *)
From Coq Require Import Ascii String List.
Import ListNotations.
From Verif Require Import Util Base LexerSpec.

Section History.
Variable C : classes.
Context {A : Type}.
(** [moves name pos a b]: with these arguments, the command changes the part from [a] to [b]. *)
Variable moves : bytes -> list (list bytes) -> A -> A -> Prop.

(** The development of the part in a dialogue with these texts. *)
Inductive history : A -> list bytes -> A -> Prop :=
| history_nil : forall a, history a [] a
| history_moves : forall line lines name pos nd a b c,
    LexerSpec.command C line (inl (SInput name pos nd)) -> moves name pos a b ->
    history b lines c -> history a (line :: lines) c
| history_stays : forall line lines a c,
    (forall name pos nd b, LexerSpec.command C line (inl (SInput name pos nd)) -> ~ moves name pos a b) ->
    history a lines c -> history a (line :: lines) c.
End History.
