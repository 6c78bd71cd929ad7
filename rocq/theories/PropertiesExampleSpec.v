(** Specification of the example about properties.  The text of a float is that of C56. *)
From Coq Require Import Ascii String NArith ZArith QArith Bool PeanoNat List.
Import ListNotations.
From Verif Require Import Util Base LexerSpec StringConv StringConvSpec Serializer SerializerSpec Lexer
  FloatConv FloatConvSpec FloatOpsSpec ExecSpec Exec FloatTextSpec NamedExampleSpec ExampleSpec.

Local Notation length := List.length.
Local Open Scope nat_scope.

Record scene := Scene { width : Z; height : Z; data : list Z }.
Definition first_scene : scene := Scene 1920 1080 [3; 1; 4]%Z.

Section Spec.
Variables (p : platform) (nm : naming) (uf : bool) (size_t : ctype) (nan_sign : bool).
Variable hypotf : fval -> fval -> fval.
Variable refuses : Z -> option bytes.
Variable catching : bool.

Definition float_param : parameter := single (float_kind uf).
Definition size_param : parameter := single (size_kind p nm size_t).

Definition table : list (bytes * list (list parameter)) :=
  [(lit "window.print_size", [[]]);
   (lit "window.aspect", [[]; [float_param]]);
   (lit "window.diagonal", [[]; [float_param]]);
   (lit "window.readonly_aspect", [[]; [float_param]]);
   (lit "window.readonly_diagonal", [[]; [float_param]]);
   (lit "data", [[]]);
   (lit "data.size", [[]; [size_param]])].

Definition as_float (n : Z) (x : fval) : Prop := nearest_float false (inject_Z n) x.

Definition the_aspect (sc : scene) (x : fval) : Prop :=
  exists a b, as_float (width sc) a /\ as_float (height sc) b /\ float_quotient nan_sign a b x.
Definition the_diagonal (sc : scene) (x : fval) : Prop :=
  exists a b, as_float (width sc) a /\ as_float (height sc) b /\ x = hypotf a b.

(** The product that becomes the width, and the two products that become width and height. *)
Definition wanted_width (sc : scene) (x y : fval) : Prop :=
  exists h, as_float (height sc) h /\ float_product nan_sign x h y.
Definition wanted_sizes (sc : scene) (x y z : fval) : Prop :=
  exists g scale a b, the_diagonal sc g /\ float_quotient nan_sign x g scale /\
    as_float (width sc) a /\ as_float (height sc) b /\
    float_product nan_sign a scale y /\ float_product nan_sign b scale z.

(** The numbers of a list, each followed by a space. *)
Inductive listed : list Z -> bytes -> Prop :=
| listed_nil : listed [] []
| listed_cons : forall z l a r, canonical z a -> listed l r -> listed (z :: l) (a ++ " "%char :: r).

(** [l'] has [n] elements: the first of [l], and zeros if there are not enough. *)
Definition resized (l : list Z) (n : Z) (l' : list Z) : Prop :=
  Z.of_nat (length l') = n /\
  forall i, (i < length l')%nat -> nth_error l' i = Some (nth i l 0%Z).
Definition refused (l : list Z) (n : Z) (what : bytes) : Prop :=
  (Z.of_nat (length l) < n)%Z /\ refuses n = Some what.

(** What is written for them. *)
Definition aspect_text (sc : scene) (t : bytes) : Prop := exists x, the_aspect sc x /\ shows millionth x t.
Definition diagonal_text (sc : scene) (t : bytes) : Prop := exists x, the_diagonal sc x /\ shows millionth x t.

Inductive acts (sc : scene) : bytes -> list (list bytes) -> list (bytes * list bytes) ->
                              scene -> list bytes -> option bytes -> bytes -> Prop :=
| acts_print : forall nd a b, canonical (width sc) a -> canonical (height sc) b ->
    acts sc (lit "window.print_size") [] nd sc [] None (a ++ lit "x" ++ b ++ [nl])
| acts_aspect : forall nd t, aspect_text sc t ->
    acts sc (lit "window.aspect") [] nd sc [] (Some t) []
| acts_set_aspect : forall nd v x y n t, denotes_value (float_kind uf) v x ->
    wanted_width sc x y -> whole_part p size_t y n ->
    aspect_text (Scene n (height sc) (data sc)) t ->
    acts sc (lit "window.aspect") [v] nd (Scene n (height sc) (data sc)) [] (Some t) []
| acts_diagonal : forall nd t, diagonal_text sc t ->
    acts sc (lit "window.diagonal") [] nd sc [] (Some t) []
| acts_set_diagonal : forall nd v x y z n m t, denotes_value (float_kind uf) v x ->
    wanted_sizes sc x y z -> whole_part p size_t y n -> whole_part p size_t z m ->
    diagonal_text (Scene n m (data sc)) t ->
    acts sc (lit "window.diagonal") [v] nd (Scene n m (data sc)) [] (Some t) []
| acts_readonly_aspect : forall nd t, aspect_text sc t ->
    acts sc (lit "window.readonly_aspect") [] nd sc [] (Some t) []
| acts_readonly_diagonal : forall nd t, diagonal_text sc t ->
    acts sc (lit "window.readonly_diagonal") [] nd sc [] (Some t) []
| acts_readonly : forall name nd v x,
    name = lit "window.readonly_aspect" \/ name = lit "window.readonly_diagonal" ->
    denotes_value (float_kind uf) v x ->
    acts sc name [v] nd sc [lit "This property is read-only"] None []
| acts_data : forall nd t, listed (data sc) t ->
    acts sc (lit "data") [] nd sc [] None (lit "{ " ++ t ++ lit "}")
| acts_size : forall nd a, canonical (Z.of_nat (length (data sc))) a ->
    acts sc (lit "data.size") [] nd sc [] (Some a) []
| acts_resize : forall nd v n l a, denotes_value (size_kind p nm size_t) v n ->
    (forall what, ~ refused (data sc) n what) -> resized (data sc) n l -> canonical n a ->
    acts sc (lit "data.size") [v] nd (Scene (width sc) (height sc) l) [] (Some a) []
| acts_refused : forall nd v n what e, denotes_value (size_kind p nm size_t) v n ->
    refused (data sc) n what -> catching = true -> exception_message (StdException what) e ->
    acts sc (lit "data.size") [v] nd sc [e] None [].

(** Undefined conversions to std::size_t, and an exception that nobody catches. *)
Inductive goes_wrong (sc : scene) : bytes -> list (list bytes) -> list (bytes * list bytes) -> fault -> Prop :=
| wrong_aspect : forall nd v x y, denotes_value (float_kind uf) v x ->
    wanted_width sc x y -> no_whole_part p size_t y ->
    goes_wrong sc (lit "window.aspect") [v] nd Overflow
| wrong_diagonal : forall nd v x y z, denotes_value (float_kind uf) v x ->
    wanted_sizes sc x y z -> no_whole_part p size_t y \/ no_whole_part p size_t z ->
    goes_wrong sc (lit "window.diagonal") [v] nd Overflow
| wrong_resize : forall nd v n what, denotes_value (size_kind p nm size_t) v n ->
    refused (data sc) n what -> catching = false ->
    goes_wrong sc (lit "data.size") [v] nd AssertFailed.

(** The sizes are values of std::size_t, the elements values of int. *)
Definition proper_scene (sc : scene) : Prop :=
  in_range p size_t (width sc) /\ in_range p size_t (height sc).
End Spec.

(** What is assumed of hypotf: the result is a float. *)
Definition hypot_type (hypotf : fval -> fval -> fval) : Prop :=
  forall x y, value_in binary32 x -> value_in binary32 y -> value_in binary32 (hypotf x y).

(** And, for some theorems: it is zero for zeros, neither zero nor NaN for two positive numbers. *)
Definition hypot_sane (hypotf : fval -> fval -> fval) : Prop :=
  hypot_type hypotf /\
  (forall x y, zero x -> zero y -> zero (hypotf x y) /\ negative (hypotf x y) = false) /\
  (forall x y q r, value_in binary32 x -> value_in binary32 y ->
     magnitude x q -> magnitude y r -> ~ zero x -> ~ zero y ->
     ~ zero (hypotf x y) /\ ~ not_a_number (hypotf x y)).
