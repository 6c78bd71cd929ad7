(** Specification of the example with variables. *)
From Coq Require Import Ascii String NArith ZArith QArith Bool PeanoNat List.
Import ListNotations.
From Verif Require Import Util Base LexerSpec StringConv StringConvSpec Serializer SerializerSpec Lexer
  FloatConv FloatConvSpec Exec ExecSpec Enums EnumsSpec UserTypesSpec FloatTextSpec NamedExampleSpec ExampleSpec.

Local Notation length := List.length.
Local Open Scope nat_scope.

Record settings := Settings {
  scale : fval;
  city : bytes;
  type : Z;
  god : bool
}.

Section Spec.
Variables (p : platform) (nm : naming) (uf : bool).
Variable type_name : bytes.

(** VariablesExample.cpp:12-17. *)
Definition types : enumeration :=
  Enumeration type_name (UInt CInt) true [(lit "Type1", 0%Z); (lit "Type2", 1%Z); (lit "Type3", 2%Z)].

Definition table : list (bytes * list (list parameter)) :=
  [(lit "time_scale", [[]; [single (float_kind uf)]]); (lit "city", [[]; [single text_kind]]);
   (lit "type", [[]; [single (enum_kind p types)]]); (lit "god_var", [[]; [single bool_kind]]);
   (lit "god_toggle", [[]; [single bool_kind]]); (lit "print_variables", [[]])].

Definition truth (b : bool) : bytes := if b then lit "true" else lit "false".

Inductive acts (sc : settings) : bytes -> list (list bytes) -> list (bytes * list bytes) ->
                                 settings -> list bytes -> option bytes -> bytes -> Prop :=
| acts_scale : forall nd t, shows millionth (scale sc) t -> acts sc (lit "time_scale") [] nd sc [] (Some t) []
| acts_set_scale : forall nd v x t, denotes_value (float_kind uf) v x -> shows millionth x t ->
    acts sc (lit "time_scale") [v] nd (Settings x (city sc) (type sc) (god sc)) [] (Some t) []
| acts_city : forall nd, acts sc (lit "city") [] nd sc [] (Some (city sc)) []
| acts_set_city : forall nd s,
    acts sc (lit "city") [[s]] nd (Settings (scale sc) s (type sc) (god sc)) [] (Some s) []
| acts_type : forall nd t, called types (type sc) t -> acts sc (lit "type") [] nd sc [] (Some t) []
| acts_set_type : forall nd v z t, denotes_value (enum_kind p types) v z -> called types z t ->
    acts sc (lit "type") [v] nd (Settings (scale sc) (city sc) z (god sc)) [] (Some t) []
| acts_god : forall nd, acts sc (lit "god_var") [] nd sc [] (Some (truth (god sc))) []
| acts_toggle : forall nd,
    acts sc (lit "god_toggle") [] nd (Settings (scale sc) (city sc) (type sc) (negb (god sc))) []
      (Some (truth (negb (god sc)))) []
| acts_set_god : forall name nd v b, name = lit "god_var" \/ name = lit "god_toggle" -> denotes_value bool_kind v b ->
    acts sc name [v] nd (Settings (scale sc) (city sc) (type sc) b) [] (Some (truth b)) []
| acts_print : forall nd a b c, shows_fixed (scale sc) a -> before_nul (city sc) b -> called types (type sc) c ->
    acts sc (lit "print_variables") [] nd sc [] None
      (lit "Time scale: " ++ a ++ lit ", city: " ++ b ++ lit ", type: " ++ c ++ [nl]).

Definition first_settings : settings := Settings (Fin false (2 ^ 23) (-23)) (lit "Moscow") 1 false.
Definition proper (sc : settings) : Prop := value_in binary32 (scale sc) /\ in_range p CInt (type sc).
Definition never (_ : settings) (_ : bytes) (_ : list (list bytes)) (_ : list (bytes * list bytes)) (_ : fault) : Prop := False.
End Spec.
