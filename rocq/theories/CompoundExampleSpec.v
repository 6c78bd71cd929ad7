(** Specification of the example with compound values. *)
From Coq Require Import Ascii String NArith ZArith QArith Bool PeanoNat List.
Import ListNotations.
From Verif Require Import Util Base LexerSpec StringConv StringConvSpec Serializer SerializerSpec Lexer
  FloatConv FloatConvSpec UserTypesSpec FloatOpsSpec FloatSumSpec ExecSpec FloatTextSpec NamedExampleSpec ExampleSpec.

Local Notation length := List.length.
Local Open Scope nat_scope.

(** A particle: its name, where it is, and how fast. *)
Record body := Body { called : bytes; at_ : fval * fval; speed : fval * fval }.
Record scene := Scene { bodies : list body; pivot : fval * fval }.
Definition plus_zero : fval := Fin false 0 (-149).
Definition first_scene : scene := Scene [] (plus_zero, plus_zero).
Definition with_bodies l sc := Scene l (pivot sc).
Definition with_pivot x sc := Scene (bodies sc) x.

(** [b] is the first with this name. *)
Definition first_called (n : bytes) (l : list body) (b : body) : Prop :=
  exists x y, l = x ++ b :: y /\ called b = n /\ ~ In n (map called x).

(** The text of a point. *)
Definition point_text (x : fval * fval) (t : bytes) : Prop :=
  exists a b, shows_general (fst x) a /\ shows_general (snd x) b /\ t = lit "(" ++ a ++ lit "," ++ b ++ lit ")".
Definition body_text (b : body) (t : bytes) : Prop :=
  exists x v, point_text (at_ b) x /\ point_text (speed b) v /\
    t = lit "{'" ++ called b ++ lit "': p " ++ x ++ lit ", v " ++ v ++ lit "}".

(** The table of the particles. *)
Inductive rows : list body -> bytes -> Prop :=
| rows_none : rows [] []
| rows_more : forall b l n x v t r, before_nul (called b) n -> point_text (at_ b) x -> point_text (speed b) v ->
    tabulated [n; x; v] t -> rows l r -> rows (b :: l) (t ++ nl :: r).
Definition head (t : bytes) : Prop :=
  exists a b, tabulated (map lit ["ID"; "Pos"; "Vel"]%string) a /\
    tabulated (map lit ["--"; "---"; "---"]%string) b /\ t = a ++ nl :: b ++ [nl].

(** The sum of the magnitudes. *)
Definition total_size (zs : list Z) : Z := fold_right (fun z s => (Z.abs z + s)%Z) 0%Z zs.

Section Spec.
Variables (uf : bool) (point_name : bytes) (nan_sign : bool).

Local Notation floats := (denotes_value (float_kind uf)).

(** A coordinate after the time [t]. *)
Definition moved (x v t y : fval) : Prop := exists z, float_product nan_sign v t z /\ float_sum nan_sign x z y.
Definition moves (t : fval) (a b : body) : Prop :=
  called b = called a /\ speed b = speed a /\
  moved (fst (at_ a)) (fst (speed a)) t (fst (at_ b)) /\ moved (snd (at_ a)) (snd (speed a)) t (snd (at_ b)).

(** Numbers are added from the left. *)
Inductive adds : fval -> list fval -> fval -> Prop :=
| adds_none : forall a, adds a [] a
| adds_more : forall a x b l r, float_sum nan_sign a x b -> adds b l r -> adds a (x :: l) r.

Definition text_param : parameter := single text_kind.
Definition float_param : parameter := single (float_kind uf).
Definition point_param : parameter := Takes _ (denotes_pair uf) (pair_error uf point_name).
(** All items are numbers; the message is about the first that is not. *)
Definition numbers (v : list bytes) (xs : list fval) : Prop := Forall2 (k_word (float_kind uf)) v xs.
Definition numbers_param : parameter :=
  Takes (list fval) numbers
    (fun v e => exists pre s post xs c, v = pre ++ s :: post /\ numbers pre xs /\ complaint (float_kind uf) [s] c /\
       conversion_error (lit "vector<float>") v (Some c) e).
(** Nothing, or an empty first item; otherwise the first item is a number.  The others do not matter. *)
Inductive maybe : list bytes -> option fval -> Prop :=
| maybe_nothing : maybe [] None
| maybe_empty : forall r, maybe ([] :: r) None
| maybe_number : forall s r x, s <> [] -> k_word (float_kind uf) s x -> maybe (s :: r) (Some x).
Definition maybe_param : parameter :=
  Takes (option fval) maybe
    (fun v e => exists s r c, v = s :: r /\ s <> [] /\ complaint (float_kind uf) [s] c /\
       conversion_error (lit "optional<float>") v (Some c) e).

Definition table : list (bytes * list (list parameter)) :=
  [(lit "particles.add", [[text_param; point_param; point_param]]); (lit "particles.get", [[text_param]]);
   (lit "particles.update", [[float_param]]); (lit "particles.list", [[]]);
   (lit "pivot", [[]; [point_param]]); (lit "sum_all", [[numbers_param]]); (lit "get_arg_or_pi", [[maybe_param]])].

Inductive acts (sc : scene) : bytes -> list (list bytes) -> list (bytes * list bytes) ->
                              scene -> list bytes -> option bytes -> bytes -> Prop :=
| acts_add : forall nd n v w x y, denotes_pair uf v x -> denotes_pair uf w y ->
    acts sc (lit "particles.add") [[n]; v; w] nd (with_bodies (bodies sc ++ [Body n x y]) sc) [] None []
| acts_get : forall nd n b t, first_called n (bodies sc) b -> body_text b t ->
    acts sc (lit "particles.get") [[n]] nd sc [] (Some t) []
| acts_get_none : forall nd n, ~ In n (map called (bodies sc)) ->
    acts sc (lit "particles.get") [[n]] nd sc [] (Some (lit "null")) []
| acts_update : forall nd v t l, floats v t -> Forall2 (moves t) (bodies sc) l ->
    acts sc (lit "particles.update") [v] nd (with_bodies l sc) [] None []
| acts_list : forall nd h r, head h -> rows (bodies sc) r ->
    acts sc (lit "particles.list") [] nd sc [] None (h ++ r)
| acts_pivot : forall nd t, point_text (pivot sc) t ->
    acts sc (lit "pivot") [] nd sc [] (Some t) []
| acts_set_pivot : forall nd v x t, denotes_pair uf v x -> point_text x t ->
    acts sc (lit "pivot") [v] nd (with_pivot x sc) [] (Some t) []
| acts_sum : forall nd v xs x t, numbers v xs -> adds plus_zero xs x -> shows millionth x t ->
    acts sc (lit "sum_all") [v] nd sc [] (Some t) []
| acts_argument : forall nd v x t, maybe v (Some x) -> shows millionth x t ->
    acts sc (lit "get_arg_or_pi") [v] nd sc [] (Some t) []
| acts_pi : forall nd v x t, maybe v None -> nearest_float false (314 # 100) x -> shows millionth x t ->
    acts sc (lit "get_arg_or_pi") [v] nd sc [] (Some t) [].
End Spec.

(** Nothing is undefined. *)
Definition goes_wrong (sc : scene) (name : bytes) (pos : list (list bytes)) (nd : list (bytes * list bytes)) (f : fault) : Prop := False.

(** The coordinates are floats. *)
Definition floats2 (x : fval * fval) : Prop := value_in binary32 (fst x) /\ value_in binary32 (snd x).
Definition proper (sc : scene) : Prop :=
  Forall (fun b => floats2 (at_ b) /\ floats2 (speed b)) (bodies sc) /\ floats2 (pivot sc).
