(** Specification of programs that register their commands once and then execute texts: which
    commands there are, which arguments they take, what they do, and what is answered otherwise. *)
From Coq Require Import Ascii String NArith ZArith Bool PeanoNat List.
Import ListNotations.
From Verif Require Import Util Base LexerSpec Lexer SerializerSpec ExecSpec NamedExampleSpec.

Local Notation length := List.length.

(** A parameter: which arguments denote which values, and the messages about the others. *)
Record parameter := Takes {
  p_type : Type;
  p_ok : list bytes -> p_type -> Prop;
  p_bad : list bytes -> bytes -> Prop
}.
Definition single {A} (K : kind A) : parameter := Takes A (denotes_value K) (complaint K).
(** A parameter of type coil::Value takes everything. *)
Definition anything : parameter := Takes (list bytes) (fun v x => v = x) (fun _ _ => False).

(** The messages about the arguments that do not fit, in order. *)
Inductive problems : list parameter -> list (list bytes) -> list bytes -> Prop :=
| problems_nil : problems [] [] []
| problems_fine : forall P Ps v vs x es,
    p_ok P v x -> problems Ps vs es -> problems (P :: Ps) (v :: vs) es
| problems_bad : forall P Ps v vs e es,
    p_bad P v e -> problems Ps vs es -> problems (P :: Ps) (v :: vs) (e :: es).

Section Table.
Context {S : Type}.
(** The commands with the parameters of their overloads. *)
Variable table : list (bytes * list (list parameter)).
(** [acts sc name pos nd sc' es ret out]: with arguments that fit, the scene becomes [sc'], the
    errors [es] are reported, [ret] is returned and [out] is the output. *)
Variable acts : S -> bytes -> list (list bytes) -> list (bytes * list bytes) ->
                S -> list bytes -> option bytes -> bytes -> Prop.
(** What ends the program. *)
Variable goes_wrong : S -> bytes -> list (list bytes) -> list (bytes * list bytes) -> fault -> Prop.
Variable C : classes.

Inductive does (sc : S) (name : bytes) (pos : list (list bytes)) (nd : list (bytes * list bytes))
  : S -> list bytes -> option bytes -> bytes -> Prop :=
| does_acts : forall sc' es ret out,
    acts sc name pos nd sc' es ret out -> does sc name pos nd sc' es ret out
| does_arguments : forall overloads Ps es,
    In (name, overloads) table -> In Ps overloads -> problems Ps pos es -> es <> [] ->
    does sc name pos nd sc es None []
| does_count : forall overloads e,
    In (name, overloads) table -> ~ In (length pos) (map (@length _) overloads) ->
    arity_message name (map (@length _) overloads) (length pos) e ->
    does sc name pos nd sc [e] None []
| does_unknown : forall e,
    name <> [] -> ~ In name (map fst table) -> unknown_message name e ->
    does sc name pos nd sc [e] None []
| does_nothing : name = [] -> does sc name pos nd sc [lit "No function name is specified"] None [].

(** Command texts. *)
Inductive answers_text (sc : S) (line : bytes) : S -> list bytes -> option bytes -> bytes -> Prop :=
| answers_syntax : forall e, LexerSpec.command C line (inr e) ->
    answers_text sc line sc [lit "Syntax error: " ++ message e] None []
| answers_command : forall name pos nd sc' es ret out,
    LexerSpec.command C line (inl (SInput name pos nd)) -> does sc name pos nd sc' es ret out ->
    answers_text sc line sc' es ret out.
Definition breaks_text (sc : S) (line : bytes) (f : fault) : Prop :=
  exists name pos nd, LexerSpec.command C line (inl (SInput name pos nd)) /\ goes_wrong sc name pos nd f.

(** A dialogue: errors, result and output of every text, in order. *)
Inductive dialogue : S -> list bytes -> S -> list (list bytes * option bytes * bytes) -> Prop :=
| dialogue_end : forall sc, dialogue sc [] sc []
| dialogue_step : forall sc line lines sc' es ret out sc'' rs,
    answers_text sc line sc' es ret out -> dialogue sc' lines sc'' rs ->
    dialogue sc (line :: lines) sc'' ((es, ret, out) :: rs).

(** A dialogue that ends badly. *)
Inductive disaster : S -> list bytes -> fault -> Prop :=
| disaster_here : forall sc line lines f, breaks_text sc line f -> disaster sc (line :: lines) f
| disaster_later : forall sc line lines sc' es ret out f,
    answers_text sc line sc' es ret out -> disaster sc' lines f -> disaster sc (line :: lines) f.

(** A dialogue up to a text that C01 is about. *)
Definition stuck (sc : S) (lines : list bytes) : Prop :=
  exists a line b sc' rs, lines = a ++ line :: b /\ dialogue sc a sc' rs /\ ill_command C line.
End Table.
