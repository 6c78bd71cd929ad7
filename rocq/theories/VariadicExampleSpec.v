(** Specification of the example about variadic arguments. *)
From Coq Require Import Ascii String NArith ZArith Bool PeanoNat List.
Import ListNotations.
From Verif Require Import Util Base LexerSpec StringConv StringConvSpec Serializer SerializerSpec Lexer
  ExecSpec NamedExampleSpec ExampleSpec VariadicExample.

Local Notation length := List.length.

Section Spec.
Variables (p : platform) (nm : naming) (size_t : ctype).

Definition size_param : parameter := single (size_kind p nm size_t).
Definition text_param : parameter := single text_kind.

Definition table : list (bytes * list (list parameter)) :=
  [(lit "entities.rename", [[anything; text_param]]);
   (lit "entities.list", [[]]);
   (lit "entities.add", [[size_param; text_param]])].

Definition is_number (v : list bytes) : Prop := exists id, denotes_value (size_kind p nm size_t) v id.

(** Which entities an argument means: those with this id, or, if it is no number, with this name. *)
Definition means (v : list bytes) (e : entity) : Prop :=
  denotes_value (size_kind p nm size_t) v (e_id e) \/ ~ is_number v /\ v = [e_name e].

(** One line for every entity. *)
Inductive entity_lines : list entity -> bytes -> Prop :=
| entity_lines_nil : entity_lines [] []
| entity_lines_cons : forall e l a b r, canonical (e_id e) a -> before_nul (e_name e) b -> entity_lines l r ->
    entity_lines (e :: l) (a ++ lit ": " ++ b ++ nl :: r).

Inductive acts (l : list entity) : bytes -> list (list bytes) -> list (bytes * list bytes) ->
                                   list entity -> list bytes -> option bytes -> bytes -> Prop :=
| acts_rename : forall nd v n a e b, l = a ++ e :: b -> means v e -> (forall x, In x a -> ~ means v x) ->
    acts l (lit "entities.rename") [v; [n]] nd (a ++ Entity (e_id e) n :: b) [] None []
| acts_not_found : forall nd s n, (forall x, In x l -> ~ means [s] x) ->
    acts l (lit "entities.rename") [[s]; [n]] nd l [lit "Failed to find entity '" ++ s ++ lit "'"] None []
| acts_no_type : forall nd v n e1 e2, length v <> 1 ->
    complaint (size_kind p nm size_t) v e1 -> complaint text_kind v e2 ->
    acts l (lit "entities.rename") [v; [n]] nd l [lit "Unknown type of 'entity'"; e1; e2] None []
| acts_list : forall nd t, entity_lines l t ->
    acts l (lit "entities.list") [] nd l [] None (lit "Entities:" ++ nl :: t)
| acts_add : forall nd v n id, denotes_value (size_kind p nm size_t) v id ->
    acts l (lit "entities.add") [v; [n]] nd (l ++ [Entity id n]) [] None [].

Definition never (l : list entity) (name : bytes) (pos : list (list bytes)) (nd : list (bytes * list bytes))
  (f : fault) : Prop := False.

(** The ids are values of std::size_t. *)
Definition proper (l : list entity) : Prop := forall e, In e l -> in_range p size_t (e_id e).
End Spec.
