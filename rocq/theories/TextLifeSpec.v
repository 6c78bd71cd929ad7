(** Specification for the lifetimes of command texts, independent of the functions of
    TextLife.v: what a view shows, which value an object stands for, and what a set of
    registers answers to the commands of a session. *)
From Coq Require Import Ascii String NArith ZArith Bool PeanoNat List.
Import ListNotations.
From Verif Require Import Base Lexer Serializer UMap ExecSpec TextLife.

Local Notation length := List.length.

(** The texts of the application; [None] is a text that has been freed. *)
Definition texts := list (option bytes).

(** View [v] shows the bytes [b]: a stretch of a text that exists, or nothing. *)
Inductive shows (ts : texts) : sview -> bytes -> Prop :=
| shows_nothing : forall i off, shows ts (SView i (View off 0)) []
| shows_part : forall i before b after,
    nth_error ts i = Some (Some (before ++ b ++ after)) ->
    shows ts (SView i (View (length before) (length b))) b.

(** * Types *)

(** No views inside: the objects own what they consist of. *)
Fixpoint self_contained (t : ty) : Prop :=
  match t with
  | TScalar _ | TString => True
  | TView | TValue => False
  | TVector t | TOptional t => self_contained t
  end.

(** No coil::Value inside. *)
Fixpoint without_value (t : ty) : Prop :=
  match t with
  | TScalar _ | TString | TView => True
  | TValue => False
  | TVector t | TOptional t => without_value t
  end.

(** Value itself, or a type without Value; not a vector or optional of Values. *)
Definition value_only_outermost (t : ty) : Prop := t = TValue \/ without_value t.

(** The serializer that treats views as the bytes they show. *)
Fixpoint by_value (t : ty) : serializer :=
  match t with
  | TScalar T => T
  | TString | TView => string_serializer
  | TValue => value_serializer
  | TVector t => vector_serializer (by_value t)
  | TOptional t => optional_serializer (by_value t)
  end.

(** Object [o] stands for the value [c] while the texts are [ts]. *)
Fixpoint denotes (ts : texts) (t : ty) : obj t -> carrier (by_value t) -> Prop :=
  match t with
  | TScalar T => fun o c => o = c
  | TString => fun o c => o = c
  | TView => fun o c => shows ts o c
  | TValue => fun o c => Forall2 (shows ts) o c
  | TVector t => fun o c => Forall2 (denotes ts t) o c
  | TOptional t => fun o c =>
      match o, c with
      | None, None => True
      | Some x, Some y => denotes ts t x y
      | _, _ => False
      end
  end.

(** * Registers *)

Record reg := Reg { g_name : bytes; g_type : ty; g_val : carrier (by_value g_type) }.

Inductive holds (ts : texts) : var -> reg -> Prop :=
| holds_value : forall n t o c, denotes ts t o c -> holds ts (Var n t o) (Reg n t c).

(** What a command answers to the text [cmd]: the registers before and after, the errors and
    the returned text. *)
Inductive replies (sg : bool) (cfg : lexer_cfg) (cmd : bytes)
  : list reg -> list reg -> list bytes -> option bytes -> Prop :=
| replies_syntax : forall rs e,
    parse_input sg cfg cmd = Done (Error e) ->
    replies sg cfg cmd rs rs [lit "Syntax error: " ++ e] None
| replies_no_name : forall rs inp,
    parse_input sg cfg cmd = Done (Value inp) -> i_name inp = [] ->
    replies sg cfg cmd rs rs [lit "No function name is specified"] None
| replies_unknown : forall rs inp msg,
    parse_input sg cfg cmd = Done (Value inp) -> i_name inp <> [] ->
    ~ In (i_name inp) (map g_name rs) -> unknown_message (i_name inp) msg ->
    replies sg cfg cmd rs rs [msg] None
| replies_register : forall inp rs1 t c c' rs2 es r,
    parse_input sg cfg cmd = Done (Value inp) -> i_name inp <> [] ->
    ~ In (i_name inp) (map g_name rs1) ->
    register (by_value t) (i_name inp) c (i_args inp) c' es r ->
    replies sg cfg cmd (rs1 ++ Reg (i_name inp) t c :: rs2)
                       (rs1 ++ Reg (i_name inp) t c' :: rs2) es r.

(** * Sessions *)

Definition exists_text (ts : texts) (i : nat) (b : bytes) : Prop := nth_error ts i = Some (Some b).

(** The application changes, frees and executes only texts that exist; the lexer does not
    fault on those it executes (C01 says when it does); it does not look at old results. *)
Fixpoint proper (sg : bool) (cfg : lexer_cfg) (ts : texts) (ops : list op) : Prop :=
  match ops with
  | [] => True
  | ONew b :: r => proper sg cfg (ts ++ [Some b]) r
  | OEdit i b :: r => (exists b', exists_text ts i b') /\ proper sg cfg (set_nth ts i (Some b)) r
  | OFree i :: r => (exists b', exists_text ts i b') /\ proper sg cfg (set_nth ts i None) r
  | OExecute i :: r =>
      (exists b p, exists_text ts i b /\ parse_input sg cfg b = Done p) /\ proper sg cfg ts r
  | OLook _ :: _ => False
  end.

(** The texts after a session. *)
Fixpoint final_texts (ts : texts) (ops : list op) : texts :=
  match ops with
  | [] => ts
  | ONew b :: r => final_texts (ts ++ [Some b]) r
  | OEdit i b :: r => final_texts (set_nth ts i (Some b)) r
  | OFree i :: r => final_texts (set_nth ts i None) r
  | OExecute i :: r => final_texts ts r
  | OLook _ :: r => final_texts ts r
  end.

(** [serves ts rs ops obs rs']: registers [rs] answer the commands of [ops] with [obs] and
    end as [rs'].  What becomes of a text after its command does not matter to them. *)
Inductive serves (sg : bool) (cfg : lexer_cfg)
  : texts -> list reg -> list op -> list seen -> list reg -> Prop :=
| serves_end : forall ts rs, serves sg cfg ts rs [] [] rs
| serves_new : forall ts rs b ops obs rs',
    serves sg cfg (ts ++ [Some b]) rs ops obs rs' -> serves sg cfg ts rs (ONew b :: ops) obs rs'
| serves_edit : forall ts rs i b ops obs rs',
    serves sg cfg (set_nth ts i (Some b)) rs ops obs rs' ->
    serves sg cfg ts rs (OEdit i b :: ops) obs rs'
| serves_free : forall ts rs i ops obs rs',
    serves sg cfg (set_nth ts i None) rs ops obs rs' ->
    serves sg cfg ts rs (OFree i :: ops) obs rs'
| serves_execute : forall ts rs i cmd rs1 es t ops obs rs',
    exists_text ts i cmd -> replies sg cfg cmd rs rs1 es t ->
    serves sg cfg ts rs1 ops obs rs' ->
    serves sg cfg ts rs (OExecute i :: ops) (SAnswer es t :: obs) rs'.

(** No text is changed or freed. *)
Fixpoint texts_kept (ops : list op) : Prop :=
  match ops with
  | [] => True
  | OEdit _ _ :: _ | OFree _ :: _ => False
  | _ :: r => texts_kept r
  end.

(** Some part of an input is not empty. *)
Definition some_text (i : input) : Prop :=
  i_name i <> [] \/ (exists a b, In a (i_args i) /\ In b a /\ b <> []) \/
  (exists k a, In (k, a) (i_named i) /\ (k <> [] \/ exists b, In b a /\ b <> [])).
