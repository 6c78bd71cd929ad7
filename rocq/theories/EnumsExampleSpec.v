(** Specification of the example with enumerations. *)
From Coq Require Import Ascii String NArith ZArith Bool PeanoNat List.
Import ListNotations.
From Verif Require Import Util Base LexerSpec StringConv StringConvSpec Serializer SerializerSpec Lexer Enums EnumsSpec
  ExecSpec NamedExampleSpec ExampleSpec.

Definition abilities : list bytes := [lit "None"; lit "SpeedBoost"; lit "IncreasedHealth"].
Definition modes : list bytes := [lit "Never"; lit "AfterDelay"; lit "AfterDeath"].
Definition kinds : list bytes := [lit "Integer"; lit "Float"; lit "String"].

(** The enumeration that counts these names from 0. *)
Definition counting (type : bytes) (under : ctype) (names : list bytes) : Enums.enumeration :=
  Enumeration type (UInt under) true
    (List.combine names [0%Z; 1%Z; 2%Z]).

(** The names are in the list at the position of the value; other values have no text. *)
Definition shown (names : list bytes) (v : Z) (t : bytes) : Prop :=
  (0 <= v)%Z /\ nth_error names (Z.to_nat v) = Some t \/
  ((v < 0)%Z \/ (Z.of_nat (List.length names) <= v)%Z) /\ t = [].

Record scene := Scene { ability : Z; mode : Z; kind_ : Z }.
Definition first_scene : scene := Scene 0 0 2.

Section Spec.
Variables (p : platform) (ability_name reset_name type_name : bytes) (under : ctype).

Local Notation Ab := (enum_kind p (counting ability_name CInt abilities)).
Local Notation Mo := (enum_kind p (counting reset_name under modes)).
Local Notation Ty := (enum_kind p (counting type_name CInt kinds)).

Definition table : list (bytes * list (list parameter)) :=
  [(lit "abilities.set_ability", [[single Ab; single Mo]]); (lit "abilities.get_ability", [[]]);
   (lit "abilities.get_reset_mode", [[]]); (lit "variable_type", [[]; [single Ty]])].

Inductive acts (sc : scene) : bytes -> list (list bytes) -> list (bytes * list bytes) ->
                              scene -> list bytes -> option bytes -> bytes -> Prop :=
| acts_set : forall nd v w x y, denotes_value Ab v x -> denotes_value Mo w y ->
    acts sc (lit "abilities.set_ability") [v; w] nd (Scene x y (kind_ sc)) [] None []
| acts_ability : forall nd t, shown abilities (ability sc) t -> acts sc (lit "abilities.get_ability") [] nd sc [] (Some t) []
| acts_mode : forall nd t, shown modes (mode sc) t -> acts sc (lit "abilities.get_reset_mode") [] nd sc [] (Some t) []
| acts_kind : forall nd t, shown kinds (kind_ sc) t -> acts sc (lit "variable_type") [] nd sc [] (Some t) []
| acts_set_kind : forall nd v x t, denotes_value Ty v x -> shown kinds x t ->
    acts sc (lit "variable_type") [v] nd (Scene (ability sc) (mode sc) x) [] (Some t) [].

(** ResetMode has no fixed underlying type, and its enumerators need two bits: other numbers must not
    be converted to it. *)
Definition undefined (C : classes) (line : bytes) : Prop :=
  exists v s z nd, LexerSpec.command C line (inl (SInput (lit "abilities.set_ability") [v; [s]] nd)) /\
    number p (UInt under) s z /\ ~ (0 <= z <= 3)%Z.

(** The variables are in range. *)
Definition proper (sc : scene) : Prop :=
  in_range p CInt (ability sc) /\ in_range p under (mode sc) /\ in_range p CInt (kind_ sc).
End Spec.

(** Nothing else is undefined. *)
Definition goes_wrong (sc : scene) (name : bytes) (pos : list (list bytes)) (nd : list (bytes * list bytes)) (f : fault) : Prop := False.
