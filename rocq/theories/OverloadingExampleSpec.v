(** Specification of the example about overloading. *)
From Coq Require Import Ascii String NArith ZArith Bool PeanoNat List.
Import ListNotations.
From Verif Require Import Util Base LexerSpec StringConv StringConvSpec Serializer SerializerSpec Lexer
  FloatConv FloatConvSpec UserTypesSpec ExecSpec NamedExampleSpec ExampleSpec.

Local Notation length := List.length.

Section Spec.
Variables (p : platform) (nm : naming) (uf : bool).

Definition int_param : parameter := single (integer_kind p nm CInt).
Definition float_param : parameter := single (float_kind uf).
Definition text_param : parameter := single text_kind.
Definition bool_param : parameter := single bool_kind.

Definition table : list (bytes * list (list parameter)) :=
  [(lit "func", [[]; [int_param]; [int_param; float_param]]);
   (lit "mixed_func", [[]; [int_param]; [text_param; float_param]; [text_param; float_param; bool_param]]);
   (lit "explosions.create", [[text_param]; [text_param; float_param]])].

Local Notation ints := (denotes_value (integer_kind p nm CInt)).
Local Notation floats := (denotes_value (float_kind uf)).
Local Notation bools := (denotes_value bool_kind).

Inductive acts (sc : unit) : bytes -> list (list bytes) -> list (bytes * list bytes) ->
                             unit -> list bytes -> option bytes -> bytes -> Prop :=
| acts_func1 : forall nd, acts sc (lit "func") [] nd sc [] (Some (lit "func1")) []
| acts_func2 : forall name nd v z, name = lit "func" \/ name = lit "mixed_func" -> ints v z ->
    acts sc name [v] nd sc [] (Some (lit "func2")) []
| acts_func3 : forall nd v z w x, ints v z -> floats w x ->
    acts sc (lit "func") [v; w] nd sc [] (Some (lit "func3")) []
| acts_lambda : forall nd, acts sc (lit "mixed_func") [] nd sc [] (Some (lit "lambda1")) []
| acts_method1 : forall nd t w x, floats w x ->
    acts sc (lit "mixed_func") [[t]; w] nd sc [] (Some (lit "Object::func1 from object_one")) []
| acts_method2 : forall nd t w x v b, floats w x -> bools v b ->
    acts sc (lit "mixed_func") [[t]; w; v] nd sc [] (Some (lit "Object::func2 from object_two")) []
| acts_create : forall nd t b, before_nul t b ->
    acts sc (lit "explosions.create") [[t]] nd sc [] None
      (lit "Creating an explosion '" ++ b ++ lit "' with the default radius" ++ [nl])
| acts_create_radius : forall nd t b w x r, floats w x -> before_nul t b -> shows_fixed x r ->
    acts sc (lit "explosions.create") [[t]; w] nd sc [] None
      (lit "Creating an explosion '" ++ b ++ lit "' with the radius " ++ r ++ [nl]).

Definition never (sc : unit) (name : bytes) (pos : list (list bytes)) (nd : list (bytes * list bytes))
  (f : fault) : Prop := False.

(** Which function of a command takes this number of arguments, by what it answers. *)
Inductive nth_function : bytes -> nat -> bytes -> Prop :=
| nth_func1 : nth_function (lit "func") 0 (lit "func1")
| nth_func2 : nth_function (lit "func") 1 (lit "func2")
| nth_func3 : nth_function (lit "func") 2 (lit "func3")
| nth_lambda : nth_function (lit "mixed_func") 0 (lit "lambda1")
| nth_mixed2 : nth_function (lit "mixed_func") 1 (lit "func2")
| nth_method1 : nth_function (lit "mixed_func") 2 (lit "Object::func1 from object_one")
| nth_method2 : nth_function (lit "mixed_func") 3 (lit "Object::func2 from object_two").
End Spec.
