(** Specification of the basic example. *)
From Coq Require Import Ascii String NArith ZArith Bool PeanoNat List.
Import ListNotations.
From Verif Require Import Util Base LexerSpec StringConv StringConvSpec Serializer SerializerSpec Lexer
  FloatConv FloatConvSpec FloatOpsSpec FloatSumSpec ExecSpec FloatTextSpec NamedExampleSpec ExampleSpec.

Local Notation length := List.length.

(** What a function of one integer says of itself. *)
Inductive speaker : bytes -> bytes -> Prop :=
| speaker_function : speaker (lit "plain_function") (lit "I am a function: ")
| speaker_lambda : speaker (lit "lambda") (lit "I am a lambda: ")
| speaker_custom : speaker (lit "custom_functor") (lit "I am a custom functor: ")
| speaker_std : speaker (lit "std_function") (lit "I am a std::function: ").

(** The objects that scale. *)
Inductive scaler : bytes -> Z -> Prop :=
| scaler1 : scaler (lit "scaler1.scale") 2
| scaler2 : scaler (lit "scaler2.scale") 10.

(** [t] written [n] times. *)
Inductive times (t : bytes) : Z -> bytes -> Prop :=
| times_none : times t 0 []
| times_more : forall n s, (0 <= n)%Z -> times t n s -> times t (n + 1) (t ++ s).

Definition truth (b : bool) : bytes := if b then lit "true" else lit "false".

Section Spec.
Variables (p : platform) (nm : naming) (uf : bool) (size_t : ctype) (nan_sign : bool).

Definition int_param : parameter := single (integer_kind p nm CInt).
Definition size_param : parameter := single (size_kind p nm size_t).
Definition float_param : parameter := single (float_kind uf).
Definition text_param : parameter := single text_kind.
Definition bool_param : parameter := single bool_kind.

Definition table : list (bytes * list (list parameter)) :=
  [(lit "hello", [[]]); (lit "hello_with_context", [[]]);
   (lit "print_repeated", [[text_param; size_param]]); (lit "print_quoted", [[text_param]]);
   (lit "invert", [[bool_param]]); (lit "add", [[float_param; float_param]]); (lit "concat", [[text_param; text_param]]);
   (lit "plain_function", [[int_param]]); (lit "lambda", [[int_param]]); (lit "custom_functor", [[int_param]]);
   (lit "std_function", [[int_param]]); (lit "scaler1.scale", [[int_param]]); (lit "scaler2.scale", [[int_param]])].

Local Notation ints := (denotes_value (integer_kind p nm CInt)).
Local Notation sizes := (denotes_value (size_kind p nm size_t)).
Local Notation floats := (denotes_value (float_kind uf)).
Local Notation bools := (denotes_value bool_kind).

Definition greeting : bytes := lit "Hello, world!" ++ [nl].
Definition long_greeting : bytes :=
  lit "log: no automatic line break" ++ [nl] ++
  lit "logline: line break is added automatically" ++ [nl] ++
  lit "logf: no automatic line break, but formatted" ++ [nl] ++
  lit "loglinef: automatic line break and formatted" ++ [nl].

(** The scene is what was written to std::cout. *)
Inductive acts (sc : bytes) : bytes -> list (list bytes) -> list (bytes * list bytes) ->
                              bytes -> list bytes -> option bytes -> bytes -> Prop :=
| acts_hello : forall nd, acts sc (lit "hello") [] nd (sc ++ greeting) [] None []
| acts_hello_context : forall nd, acts sc (lit "hello_with_context") [] nd sc [] None long_greeting
| acts_repeated : forall nd t v n s, sizes v n -> times t n s ->
    acts sc (lit "print_repeated") [[t]; v] nd sc [] None s
| acts_quoted : forall nd t b, before_nul t b ->
    acts sc (lit "print_quoted") [[t]] nd sc [] None (lit "'" ++ b ++ lit "'" ++ [nl])
| acts_invert : forall nd v b, bools v b -> acts sc (lit "invert") [v] nd sc [] (Some (truth (negb b))) []
| acts_add : forall nd v w x y z t, floats v x -> floats w y -> float_sum nan_sign x y z -> shows millionth z t ->
    acts sc (lit "add") [v; w] nd sc [] (Some t) []
| acts_concat : forall nd t t', acts sc (lit "concat") [[t]; [t']] nd sc [] (Some (t ++ t')) []
| acts_speak : forall name pre nd v z t, speaker name pre -> ints v z -> canonical z t ->
    acts sc name [v] nd sc [] (Some (pre ++ t)) []
| acts_scale : forall name k nd v z t, scaler name k -> ints v z -> in_range p CInt (z * k) -> canonical (z * k) t ->
    acts sc name [v] nd sc [] (Some t) [].

(** The product of two int that int does not have. *)
Inductive goes_wrong (sc : bytes) : bytes -> list (list bytes) -> list (bytes * list bytes) -> fault -> Prop :=
| wrong_scale : forall name k nd v z, scaler name k -> ints v z -> ~ in_range p CInt (z * k) ->
    goes_wrong sc name [v] nd Overflow.
End Spec.

(** How many of the texts say hello. *)
Inductive hellos (C : classes) : list bytes -> nat -> Prop :=
| hellos_none : hellos C [] 0
| hellos_one : forall line lines nd n, LexerSpec.command C line (inl (SInput (lit "hello") [] nd)) ->
    hellos C lines n -> hellos C (line :: lines) (S n)
| hellos_other : forall line lines n, (forall nd, ~ LexerSpec.command C line (inl (SInput (lit "hello") [] nd))) ->
    hellos C lines n -> hellos C (line :: lines) n.
