(** Specification of the example with flags. *)
From Coq Require Import Ascii String NArith ZArith Bool PeanoNat List.
Import ListNotations.
From Verif Require Import Util Base LexerSpec StringConv StringConvSpec Serializer SerializerSpec Lexer Enums EnumsSpec
  ExecSpec NamedExampleSpec ExampleSpec.

(** What is drawn for each bit. *)
Definition parts : list (Z * bytes) :=
  [(0%Z, lit "Drawing bounding box"); (1%Z, lit "Drawing origin"); (2%Z, lit "Drawing wireframe"); (3%Z, lit "Drawing name")].
Inductive drawn (v : Z) : list (Z * bytes) -> bytes -> Prop :=
| drawn_none : drawn v [] []
| drawn_yes : forall k t l r, Z.testbit v k = true -> drawn v l r -> drawn v ((k, t) :: l) (t ++ nl :: r)
| drawn_no : forall k t l r, Z.testbit v k = false -> drawn v l r -> drawn v ((k, t) :: l) r.

(** The flags and their bits. *)
Definition bits_named : list (Z * bytes) :=
  [(0%Z, lit "DrawBoundingBox"); (1%Z, lit "DrawOrigin"); (2%Z, lit "DrawWireframe"); (3%Z, lit "DrawName")].

Section Spec.
Variables (p : platform) (flags_name : bytes).

Definition drawing : Enums.enumeration :=
  Enumeration flags_name (UInt CInt) true (map (fun kn => (snd kn, (2 ^ fst kn)%Z)) bits_named).

Definition items (v : list bytes) (xs : list Z) : Prop := Forall2 (read_as p drawing) v xs.
(** The message is about the first item that is no flag. *)
Definition flags_param : parameter :=
  Takes (list Z) items
    (fun v e => exists pre s post xs c, v = pre ++ s :: post /\ items pre xs /\ complaint (enum_kind p drawing) [s] c /\
       conversion_error (lit "vector<" ++ flags_name ++ lit ">") v (Some c) e).

Definition table : list (bytes * list (list parameter)) :=
  [(lit "entity.flags", [[]; [flags_param]]); (lit "entity.draw", [[]])].

Inductive acts (v : Z) : bytes -> list (list bytes) -> list (bytes * list bytes) ->
                         Z -> list bytes -> option bytes -> bytes -> Prop :=
| acts_get : forall nd t, flags_print drawing v t -> acts v (lit "entity.flags") [] nd v [] (Some t) []
| acts_set : forall nd w xs r t, items w xs -> union xs r -> flags_print drawing r t ->
    acts v (lit "entity.flags") [w] nd r [] (Some t) []
| acts_draw : forall nd t, drawn v parts t -> acts v (lit "entity.draw") [] nd v [] None t.
End Spec.

(** Nothing is undefined. *)
Definition goes_wrong (v : Z) (name : bytes) (pos : list (list bytes)) (nd : list (bytes * list bytes)) (f : fault) : Prop := False.

(** The value with exactly the bits 0 and 3. *)
Definition first_flags (v : Z) : Prop := forall k, Z.testbit v k = true <-> k = 0%Z \/ k = 3%Z.
