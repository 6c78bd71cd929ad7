(** Specification of the example with user-defined types. *)
From Coq Require Import Ascii String NArith ZArith Bool PeanoNat List.
Import ListNotations.
From Verif Require Import Util Base LexerSpec StringConv StringConvSpec Serializer SerializerSpec Lexer
  FloatConv FloatConvSpec UserTypesSpec FloatOpsSpec FloatSumSpec ExecSpec NamedExampleSpec ExampleSpec.

Local Notation length := List.length.

(** The names of the entities in order, the focused one, and the particle. *)
Record scene := Scene { names : list bytes; focus : Z; position : fval * fval; velocity : fval * fval }.
Definition plus_zero : fval := Fin false 0 (-149).
Definition first_scene : scene := Scene [] 0 (plus_zero, plus_zero) (plus_zero, plus_zero).
Definition with_names l sc := Scene l (focus sc) (position sc) (velocity sc).
Definition with_focus i sc := Scene (names sc) i (position sc) (velocity sc).
Definition with_position x sc := Scene (names sc) (focus sc) x (velocity sc).

(** [i] is the first place where the name is. *)
Definition first_at (n : bytes) (l : list bytes) (i : Z) : Prop :=
  exists a b, l = a ++ n :: b /\ ~ In n a /\ i = Z.of_nat (length a).

(** [without v l r]: [r] are the elements of [l] that are not in [v]. *)
Inductive without (v : list bytes) : list bytes -> list bytes -> Prop :=
| without_nil : without v [] []
| without_drop : forall x l r, In x v -> without v l r -> without v (x :: l) r
| without_keep : forall x l r, ~ In x v -> without v l r -> without v (x :: l) (x :: r).

Definition id_text (a : bytes) : bytes := lit "EntityId{" ++ a ++ lit "}".
(** The text of a pair. *)
Definition pair_text (x : fval * fval) (t : bytes) : Prop :=
  exists a b, shows_fixed (fst x) a /\ shows_fixed (snd x) b /\ t = lit "(" ++ a ++ lit ", " ++ b ++ lit ")".

Section Spec.
Variables (p : platform) (nm : naming) (uf : bool) (size_t : ctype) (nan_sign : bool).

Local Notation ints := (integer_kind p nm CInt).
Local Notation sizes := (size_kind p nm size_t).

Definition text_param : parameter := single text_kind.
Definition float_param : parameter := single (float_kind uf).
Definition vec_param : parameter := Takes _ (denotes_pair uf) (pair_error uf (lit "Vec2")).
(** The message about a bad id contains the message about the number. *)
Definition id_param : parameter :=
  Takes Z (denotes_value sizes)
    (fun v e => exists c, complaint sizes v c /\ conversion_error (lit "EntityId") v (Some c) e).
Definition texts_param : parameter := Takes (list bytes) (fun v l => v = l) (fun _ _ => False).
(** All items are integers; the message is about the first that is not. *)
Definition integers (v : list bytes) (zs : list Z) : Prop := Forall2 (k_word ints) v zs.
Definition ints_param : parameter :=
  Takes (list Z) integers
    (fun v e => exists pre s post zs c, v = pre ++ s :: post /\ integers pre zs /\ complaint ints [s] c /\
       conversion_error (lit "DynamicArray<" ++ k_name ints ++ lit ">") v (Some c) e).

Definition table : list (bytes * list (list parameter)) :=
  [(lit "entities.add", [[text_param]]); (lit "entities.find", [[text_param]]);
   (lit "entities.focused_entity", [[]; [id_param]]); (lit "entities.remove_some", [[texts_param]]);
   (lit "particles.spawn", [[vec_param; vec_param]]); (lit "particles.get_pos_at", [[float_param]]);
   (lit "particles.last_particle_pos", [[]; [vec_param]]); (lit "sum", [[ints_param]])].

(** A coordinate after the time [t]. *)
Definition moved (x v t y : fval) : Prop := exists z, float_product nan_sign v t z /\ float_sum nan_sign x z y.
Definition moved_pair (x v : fval * fval) (t : fval) (y : fval * fval) : Prop :=
  moved (fst x) (fst v) t (fst y) /\ moved (snd x) (snd v) t (snd y).

Definition total (zs : list Z) : Z := fold_right Z.add 0%Z zs.
Definition summable (zs : list Z) : Prop := forall s, prefix_sum zs s -> int_range s.

Inductive acts (sc : scene) : bytes -> list (list bytes) -> list (bytes * list bytes) ->
                              scene -> list bytes -> option bytes -> bytes -> Prop :=
| acts_add : forall nd n a, canonical (Z.of_nat (length (names sc))) a ->
    acts sc (lit "entities.add") [[n]] nd (with_names (names sc ++ [n]) sc) [] (Some (id_text a)) []
| acts_find : forall nd n i a, first_at n (names sc) i -> canonical i a ->
    acts sc (lit "entities.find") [[n]] nd sc [] (Some (id_text a)) []
| acts_find_none : forall nd n, ~ In n (names sc) ->
    acts sc (lit "entities.find") [[n]] nd sc [] (Some []) []
| acts_focus : forall nd a, canonical (focus sc) a ->
    acts sc (lit "entities.focused_entity") [] nd sc [] (Some (id_text a)) []
| acts_set_focus : forall nd v i a, denotes_value sizes v i -> canonical i a ->
    acts sc (lit "entities.focused_entity") [v] nd (with_focus i sc) [] (Some (id_text a)) []
| acts_remove : forall nd v l, without v (names sc) l ->
    acts sc (lit "entities.remove_some") [v] nd (with_names l sc) [] None []
| acts_spawn : forall nd v w x y, denotes_pair uf v x -> denotes_pair uf w y ->
    acts sc (lit "particles.spawn") [v; w] nd (Scene (names sc) (focus sc) x y) [] None []
| acts_pos_at : forall nd v t y a, denotes_value (float_kind uf) v t ->
    moved_pair (position sc) (velocity sc) t y -> pair_text y a ->
    acts sc (lit "particles.get_pos_at") [v] nd sc [] (Some a) []
| acts_pos : forall nd a, pair_text (position sc) a ->
    acts sc (lit "particles.last_particle_pos") [] nd sc [] (Some a) []
| acts_set_pos : forall nd v x a, denotes_pair uf v x -> pair_text x a ->
    acts sc (lit "particles.last_particle_pos") [v] nd (with_position x sc) [] (Some a) []
| acts_sum : forall nd v zs a, integers v zs -> summable zs -> canonical (total zs) a ->
    acts sc (lit "sum") [v] nd sc [] (Some a) [].

(** Undefined: the sum of some first integers is out of range. *)
Inductive goes_wrong (sc : scene) : bytes -> list (list bytes) -> list (bytes * list bytes) -> fault -> Prop :=
| wrong_sum : forall nd v zs, integers v zs -> ~ summable zs -> goes_wrong sc (lit "sum") [v] nd Overflow.

(** The components are floats, the id is a std::size_t. *)
Definition proper (sc : scene) : Prop :=
  in_range p size_t (focus sc) /\
  value_in binary32 (fst (position sc)) /\ value_in binary32 (snd (position sc)) /\
  value_in binary32 (fst (velocity sc)) /\ value_in binary32 (snd (velocity sc)).
End Spec.
