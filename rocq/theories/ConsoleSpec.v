(** Specification of the console of the examples: what it answers to a line, and what a session
    shows.  Nothing here mentions the registry, handlers or the loop of the model. *)
From Coq Require Import Ascii String NArith ZArith Bool PeanoNat List.
Import ListNotations.
From Verif Require Import Util Base LexerSpec SerializerSpec ExecSpec.

Definition nl : byte := ascii_of_nat 10.

Definition lines (l : list bytes) : bytes := concat (map (fun t => t ++ [nl]) l).

Definition example_names : list bytes :=
  map lit ["basic"; "variables"; "enums"; "flags"; "variadic"; "named"; "usertypes"; "errors";
           "compound"; "overloading"; "properties"; "encapsulation"; "advanced"]%string.

Definition known (name : bytes) : Prop :=
  name = lit "help" \/ name = lit "exit" \/ name = lit "run_all" \/ In name example_names.

Definition help_text : bytes :=
  lines ([lit "Available examples:"] ++ map (fun n => lit "    " ++ n) example_names ++
         map lit [""; "Type the example name to run it"; "Type 'help' for this help";
                  "Type 'exit' to exit"; ""]%string).

Definition error_line (e : bytes) : bytes := lines [lit "Error: " ++ e].

(** All examples one after the other; [demo i] is what the [i]-th one writes. *)
Definition all_demos (demo : nat -> bytes) : bytes :=
  concat (map demo (seq 0 (length example_names))).

Section Spec.
Variable C : classes.
Variable demo : nat -> bytes.

(** [replies line text stop]: the console answers [line] with [text]; [stop] says whether it
    ends.  Named arguments play no role. *)
Inductive replies (line : bytes) : bytes -> bool -> Prop :=
| reply_syntax : forall e, command C line (inr e) ->
    replies line (error_line (lit "Syntax error: " ++ message e)) false
| reply_no_name : forall pos named, command C line (inl (SInput [] pos named)) ->
    replies line (error_line (lit "No function name is specified")) false
| reply_unknown : forall name pos named msg, command C line (inl (SInput name pos named)) ->
    name <> [] -> ~ known name -> unknown_message name msg -> replies line (error_line msg) false
| reply_count : forall name pos named msg, command C line (inl (SInput name pos named)) ->
    known name -> pos <> [] -> arity_message name [0] (length pos) msg ->
    replies line (error_line msg) false
| reply_help : forall named, command C line (inl (SInput (lit "help") [] named)) ->
    replies line help_text false
| reply_exit : forall named, command C line (inl (SInput (lit "exit") [] named)) ->
    replies line [] true
| reply_run_all : forall named, command C line (inl (SInput (lit "run_all") [] named)) ->
    replies line (all_demos demo) false
| reply_example : forall i name named, command C line (inl (SInput name [] named)) ->
    nth_error example_names i = Some name -> replies line (demo i) false.

(** Lines that end the console. *)
Definition exit_line (line : bytes) : Prop :=
  exists named, command C line (inl (SInput (lit "exit") [] named)).

(** Lines it goes on after. *)
Definition goes_on (line : bytes) : Prop := ~ ill_command C line /\ ~ exit_line line.

Definition prompt : bytes := lit ">>> ".

(** [session input n text rest stop]: within [n] rounds the console, given the lines [input],
    writes [text] and leaves [rest] unread; [stop] says whether it has ended.  After the last
    line it reads empty ones. *)
Inductive session : list bytes -> nat -> bytes -> list bytes -> bool -> Prop :=
| session_pause : forall input, session input 0 [] input false
| session_exit : forall line text rest n, replies line text true ->
    session (line :: rest) (S n) (prompt ++ text) rest true
| session_line : forall line text rest n text' rest' stop,
    replies line text false -> session rest n text' rest' stop ->
    session (line :: rest) (S n) (prompt ++ text ++ text') rest' stop
| session_eof : forall n text' rest' stop,
    session [] n text' rest' stop ->
    session [] (S n) (prompt ++ error_line (lit "No function name is specified") ++ text') rest' stop.
End Spec.
