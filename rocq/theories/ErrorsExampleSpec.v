(** Specification of the example about errors. *)
From Coq Require Import Ascii String NArith ZArith QArith Bool PeanoNat List.
Import ListNotations.
From Verif Require Import Util Base LexerSpec StringConv StringConvSpec Serializer SerializerSpec Lexer
  FloatConv FloatConvSpec Exec ExecSpec FloatTextSpec NamedExampleSpec ExampleSpec.

Local Notation length := List.length.
Local Open Scope nat_scope.

(** What is assumed of std::sqrt: the result is a float. *)
Definition sqrt_type (sqrtf : fval -> fval) : Prop := forall x, value_in binary32 x -> value_in binary32 (sqrtf x).

Section Spec.
Variables (p : platform) (nm : naming) (uf : bool).
Variable sqrtf : fval -> fval.
Variable catching : bool.

Definition float_param : parameter := single (float_kind uf).

Definition table : list (bytes * list (list parameter)) :=
  [(lit "sqrt_context", [[float_param]]); (lit "sqrt_except", [[float_param]]); (lit "get_float", [[anything]]);
   (lit "get_type_name", [[anything]]); (lit "test_named_args", [[]])].

(** Less than zero. *)
Definition less_than_zero (x : fval) : Prop := (exists q, stands_for x q /\ (q < 0)%Q) \/ x = Inf true.

Definition non_negative : bytes := lit "Value should be non-negative!".
Definition is {A} (K : kind A) (v : list bytes) : Prop := exists x, denotes_value K v x.
Local Notation floats := (float_kind uf).
Local Notation ints := (integer_kind p nm CInt).

Inductive acts (sc : unit) : bytes -> list (list bytes) -> list (bytes * list bytes) ->
                             unit -> list bytes -> option bytes -> bytes -> Prop :=
| acts_sqrt : forall name nd v x t, name = lit "sqrt_context" \/ name = lit "sqrt_except" ->
    denotes_value floats v x -> ~ less_than_zero x -> shows millionth (sqrtf x) t ->
    acts sc name [v] nd sc [] (Some t) []
| acts_context : forall nd v x, denotes_value floats v x -> less_than_zero x ->
    acts sc (lit "sqrt_context") [v] nd sc [non_negative] None []
| acts_except : forall nd v x e, denotes_value floats v x -> less_than_zero x -> catching = true ->
    exception_message (StdException non_negative) e ->
    acts sc (lit "sqrt_except") [v] nd sc [e] None []
| acts_float : forall nd v x t, denotes_value floats v x -> shows millionth x t ->
    acts sc (lit "get_float") [v] nd sc [] (Some t) []
| acts_no_float : forall nd v e, complaint floats v e ->
    acts sc (lit "get_float") [v] nd sc [e] None []
| acts_is_bool : forall nd v, is bool_kind v ->
    acts sc (lit "get_type_name") [v] nd sc [] (Some (lit "bool")) []
| acts_is_int : forall nd v, ~ is bool_kind v -> is ints v ->
    acts sc (lit "get_type_name") [v] nd sc [] (Some (lit "int")) []
| acts_is_float : forall nd v, ~ is bool_kind v -> ~ is ints v -> is floats v ->
    acts sc (lit "get_type_name") [v] nd sc [] (Some (lit "float")) []
| acts_no_type : forall nd v e1 e2 e3, complaint bool_kind v e1 -> complaint ints v e2 -> complaint floats v e3 ->
    acts sc (lit "get_type_name") [v] nd sc [lit "Unknown type"; e1; e2; e3] None []
| acts_named_missing : forall nd e, no_named (lit "any_arg") nd -> missing_message (lit "any_arg") e ->
    acts sc (lit "test_named_args") [] nd sc [e] None []
| acts_named_float : forall nd v r es, first_named (lit "any_arg") nd v ->
    lookup floats nd (lit "float_arg") true None r es -> es <> [] ->
    acts sc (lit "test_named_args") [] nd sc es None []
| acts_named_int : forall nd v x r es, first_named (lit "any_arg") nd v ->
    lookup floats nd (lit "float_arg") true None (Some x) [] ->
    lookup ints nd (lit "int_arg") false None r es -> es <> [] ->
    acts sc (lit "test_named_args") [] nd sc es None []
| acts_named : forall nd v x r w t g, first_named (lit "any_arg") nd v ->
    lookup floats nd (lit "float_arg") true None (Some x) [] ->
    lookup ints nd (lit "int_arg") false None r [] ->
    joined (lit " ") v w -> before_nul w t -> shows_general x g ->
    forall a, match r with None => a = [] | Some z => exists b, canonical z b /\ a = lit ", " ++ b end ->
    acts sc (lit "test_named_args") [] nd sc [] None (t ++ lit ", " ++ g ++ a).

(** An exception that nobody catches. *)
Inductive goes_wrong (sc : unit) : bytes -> list (list bytes) -> list (bytes * list bytes) -> fault -> Prop :=
| wrong_except : forall nd v x, denotes_value floats v x -> less_than_zero x -> catching = false ->
    goes_wrong sc (lit "sqrt_except") [v] nd AssertFailed.
End Spec.
