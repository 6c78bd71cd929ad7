(** Specification of the example about named arguments: what its commands answer and do to the
    inventory.  From the models only the representation of values, items and enumerations is
    used. *)
From Coq Require Import Ascii String NArith ZArith Bool PeanoNat List.
Import ListNotations.
From Verif Require Import Util Base LexerSpec StringConv StringConvSpec Serializer SerializerSpec Lexer
  FloatConv FloatConvSpec Exec ExecSpec Enums EnumsSpec UserTypesSpec NamedExample.

Local Notation length := List.length.

Definition nl : byte := ascii_of_nat 10.
Definition tabulated (l : list bytes) (t : bytes) : Prop := joined [ascii_of_nat 9] l t.

(** [s] occurs in [t]. *)
Definition occurs (s t : bytes) : Prop := exists a b, t = a ++ s ++ b.

(** ** What the example accepts as a value of a type *)

(** A type: its name, which texts denote which values, and what its error messages add. *)
Record kind (A : Type) := Kind {
  k_name : bytes;
  k_word : bytes -> A -> Prop;
  k_hint : option bytes -> Prop
}.
Arguments Kind {A} _ _ _.
Arguments k_name {A} _.
Arguments k_word {A} _ _ _.
Arguments k_hint {A} _ _.

Definition denotes_value {A} (K : kind A) (v : list bytes) (x : A) : Prop :=
  exists s, v = [s] /\ k_word K s x.

(** The message about an argument that denotes no value. *)
Inductive complaint {A} (K : kind A) (v : list bytes) : bytes -> Prop :=
| complaint_word : forall s h e, v = [s] -> (forall x, ~ k_word K s x) -> k_hint K h ->
    conversion_error (k_name K) v h e -> complaint K v e
| complaint_count : forall d e, length v <> 1 -> mismatch_detail 1 (length v) d ->
    conversion_error (k_name K) v (Some d) e -> complaint K v e.

(** [lookup K named key required default r es]: what a command finds under [key], and the errors
    it reports about it. *)
Inductive lookup {A} (K : kind A) (named : list (bytes * list bytes)) (key : bytes)
  : bool -> option A -> option A -> list bytes -> Prop :=
| lookup_value : forall v x required default, first_named key named v -> denotes_value K v x ->
    lookup K named key required default (Some x) []
| lookup_bad : forall v e required default, first_named key named v -> complaint K v e ->
    lookup K named key required default None [e]
| lookup_default : forall default, no_named key named -> lookup K named key false default default []
| lookup_missing : forall default e, no_named key named -> missing_message key e ->
    lookup K named key true default None [e].

Section Spec.
Variables (p : platform) (nm : naming) (uf : bool) (size_t : ctype).
Variables source_name type_name save_name : bytes.
Variable C : classes.

Definition no_hint (h : option bytes) : Prop := h = None.

Definition text_kind : kind bytes := Kind (lit "string") (fun s x => s = x) no_hint.
Definition integer_kind (t : ctype) : kind Z := Kind (arithmeticName nm t) (number p (UInt t)) no_hint.
Definition float_kind : kind fval := Kind (lit "float") (conversion binary32 uf) no_hint.
Definition bool_kind : kind bool :=
  Kind (lit "bool") (fun s (b : bool) => s = (if b then lit "1" else lit "0") \/
                                spells s (if b then lit "true" else lit "false")) no_hint.
(** The message lists the names in order. *)
Definition enum_kind (e : enumeration) : kind Z :=
  Kind (e_type e) (read_as p e)
    (fun h => exists l names, listing e l /\ joined (lit ", ") (map (fun f => lit "'" ++ snd f ++ lit "'") l) names /\
       h = Some (lit "Possible values are [" ++ names ++ lit "]")).

Definition size_kind : kind Z := integer_kind size_t.
Definition source_kind : kind Z := enum_kind (Source source_name).
Definition type_kind : kind Z := enum_kind (Type_ type_name).
Definition save_kind : kind Z := enum_kind (SaveGameType save_name).

(** ** The inventory *)

(** The name of a value, or nothing if it has none. *)
Definition called (e : enumeration) (v : Z) (t : bytes) : Prop :=
  first_name e v t \/ (forall m, ~ In (m, v) (e_decl e)) /\ t = [].

Definition item_text (i : item) (t : bytes) : Prop :=
  exists a b c d e, canonical (it_id i) a /\ before_nul (it_name i) b /\ canonical (it_amount i) c /\
    called (Source source_name) (it_source i) d /\ called (Type_ type_name) (it_type i) e /\
    tabulated [a; b; c; d; e] t.

Definition wanted (name : option bytes) (least source type : option Z) (i : item) : Prop :=
  (forall x, name = Some x -> occurs x (it_name i)) /\
  (forall x, least = Some x -> (x <= it_amount i)%Z) /\
  (forall x, source = Some x -> it_source i = x) /\
  (forall x, type = Some x -> it_type i = x).

(** The lines of the wanted items, in order. *)
Inductive item_lines (W : item -> Prop) : list item -> bytes -> Prop :=
| item_lines_nil : item_lines W [] []
| item_lines_yes : forall i l t r, W i -> item_text i t -> item_lines W l r ->
    item_lines W (i :: l) (t ++ nl :: r)
| item_lines_no : forall i l r, ~ W i -> item_lines W l r -> item_lines W (i :: l) r.

Definition table_head (t : bytes) : Prop :=
  exists a b, tabulated (map lit ["ID"; "Name"; "Amount"; "Source"; "Type"]%string) a /\
    tabulated (map lit ["--"; "----"; "------"; "------"; "----"]%string) b /\
    t = a ++ nl :: b ++ [nl].

(** ** Other texts *)

(** One line for every named argument: key and value. *)
Inductive arg_lines : list (bytes * list bytes) -> bytes -> Prop :=
| arg_lines_nil : arg_lines [] []
| arg_lines_cons : forall key v l k w t r, before_nul key k -> joined (lit " ") v w -> before_nul w t ->
    arg_lines l r -> arg_lines ((key, v) :: l) (k ++ lit ": " ++ t ++ nl :: r).

(** One line for every named argument that is a number. *)
Inductive float_lines : list (bytes * list bytes) -> bytes -> Prop :=
| float_lines_nil : float_lines [] []
| float_lines_yes : forall key v l k x t r, denotes_value float_kind v x -> before_nul key k ->
    shows_fixed x t -> float_lines l r -> float_lines ((key, v) :: l) (k ++ lit ": " ++ t ++ nl :: r)
| float_lines_no : forall key v l r, (forall x, ~ denotes_value float_kind v x) ->
    float_lines l r -> float_lines ((key, v) :: l) r.

(** A value shown as a bool if it is one, else as an int. *)
Inductive any_shown (title : bytes) (v : list bytes) : list bytes -> bytes -> Prop :=
| any_bool : forall b, denotes_value bool_kind v b ->
    any_shown title v [] (title ++ lit ": " ++ (if b then lit "true" else lit "false") ++ [nl])
| any_int : forall z t, (forall b, ~ denotes_value bool_kind v b) -> denotes_value (integer_kind CInt) v z ->
    canonical z t -> any_shown title v [] (title ++ lit ": " ++ t ++ [nl])
| any_none : forall e e', complaint bool_kind v e -> complaint (integer_kind CInt) v e' ->
    any_shown title v [e; e'] [].

(** ** Commands *)

Definition parameters (name : bytes) (n : nat) : Prop :=
  name = lit "inventory.add" /\ n = 2 \/
  In name (map lit ["inventory.list"; "print_args"; "print_floats"; "save_game"; "required_and_optional"]%string) /\
  n = 0.

(** [does items name pos named items' es out]: on a command with this name and these arguments
    the inventory becomes [items'], the errors [es] are reported and [out] is the output. *)
Inductive does (items : list item) (name : bytes) (pos : list (list bytes)) (named : list (bytes * list bytes))
  : list item -> list bytes -> bytes -> Prop :=
| does_list : forall n a s t head r,
    name = lit "inventory.list" -> pos = [] ->
    lookup text_kind named (lit "name") false None n [] ->
    lookup size_kind named (lit "min_amount") false None a [] ->
    lookup source_kind named (lit "source") false None s [] ->
    lookup type_kind named (lit "type") false None t [] ->
    table_head head -> item_lines (wanted n a s t) items r ->
    does items name pos named items [] (head ++ r)
| does_list_errors : forall n a s t e1 e2 e3 e4,
    name = lit "inventory.list" -> pos = [] ->
    lookup text_kind named (lit "name") false None n e1 ->
    lookup size_kind named (lit "min_amount") false None a e2 ->
    lookup source_kind named (lit "source") false None s e3 ->
    lookup type_kind named (lit "type") false None t e4 ->
    e1 ++ e2 ++ e3 ++ e4 <> [] ->
    does items name pos named items (e1 ++ e2 ++ e3 ++ e4) []
| does_add : forall v w id n a t,
    name = lit "inventory.add" -> pos = [v; w] -> denotes_value size_kind v id -> denotes_value text_kind w n ->
    lookup size_kind named (lit "amount") false (Some 1%Z) (Some a) [] ->
    lookup type_kind named (lit "type") false (Some 2%Z) (Some t) [] ->
    does items name pos named (items ++ [Item id n a 3 t]) [] []
| does_add_errors : forall v w id n a t e1 e2,
    name = lit "inventory.add" -> pos = [v; w] -> denotes_value size_kind v id -> denotes_value text_kind w n ->
    lookup size_kind named (lit "amount") false (Some 1%Z) a e1 ->
    lookup type_kind named (lit "type") false (Some 2%Z) t e2 -> e1 ++ e2 <> [] ->
    does items name pos named items (e1 ++ e2) []
| does_add_arguments : forall v w e1 e2,
    name = lit "inventory.add" -> pos = [v; w] ->
    (exists x, denotes_value size_kind v x) /\ e1 = [] \/ (exists e, complaint size_kind v e /\ e1 = [e]) ->
    (exists x, denotes_value text_kind w x) /\ e2 = [] \/ (exists e, complaint text_kind w e /\ e2 = [e]) ->
    e1 ++ e2 <> [] ->
    does items name pos named items (e1 ++ e2) []
| does_print_args : forall r, name = lit "print_args" -> pos = [] -> arg_lines named r ->
    does items name pos named items [] r
| does_print_floats : forall r, name = lit "print_floats" -> pos = [] -> float_lines named r ->
    does items name pos named items [] r
| does_save : forall t x m d, name = lit "save_game" -> pos = [] ->
    lookup save_kind named (lit "type") true None (Some t) [] ->
    lookup float_kind named (lit "delay") false (Some (Fin false 0 (-149))) (Some x) [] ->
    called (SaveGameType save_name) t m -> shows_fixed x d ->
    does items name pos named items []
      (lit "Saving game with type " ++ m ++ lit " and delay " ++ d ++ lit " ms" ++ [nl])
| does_save_errors : forall t x e1 e2, name = lit "save_game" -> pos = [] ->
    lookup save_kind named (lit "type") true None t e1 ->
    lookup float_kind named (lit "delay") false (Some (Fin false 0 (-149))) x e2 ->
    e1 ++ e2 <> [] -> does items name pos named items (e1 ++ e2) []
| does_required_missing : forall e, name = lit "required_and_optional" -> pos = [] ->
    no_named (lit "required") named -> missing_message (lit "required") e ->
    does items name pos named items [e] []
| does_required : forall v e1 r1, name = lit "required_and_optional" -> pos = [] ->
    first_named (lit "required") named v -> any_shown (lit "Required") v e1 r1 ->
    no_named (lit "optional") named ->
    does items name pos named items e1 r1
| does_both : forall v w e1 r1 e2 r2, name = lit "required_and_optional" -> pos = [] ->
    first_named (lit "required") named v -> any_shown (lit "Required") v e1 r1 ->
    first_named (lit "optional") named w -> any_shown (lit "Optional") w e2 r2 ->
    does items name pos named items (e1 ++ e2) (r1 ++ r2)
| does_count : forall n e, parameters name n -> length pos <> n -> arity_message name [n] (length pos) e ->
    does items name pos named items [e] []
| does_unknown : forall e, name <> [] -> (forall n, ~ parameters name n) -> unknown_message name e ->
    does items name pos named items [e] []
| does_nothing : name = [] -> does items name pos named items [lit "No function name is specified"] [].

(** The same for a command text. *)
Inductive answers_text (items : list item) (line : bytes) : list item -> list bytes -> bytes -> Prop :=
| answers_syntax : forall e, LexerSpec.command C line (inr e) ->
    answers_text items line items [lit "Syntax error: " ++ message e] []
| answers_command : forall name pos named items' es out,
    LexerSpec.command C line (inl (SInput name pos named)) -> does items name pos named items' es out ->
    answers_text items line items' es out.

(** A dialogue: the errors and the output of every command, in order. *)
Inductive dialogue : list item -> list bytes -> list item -> list (list bytes * bytes) -> Prop :=
| dialogue_end : forall items, dialogue items [] items []
| dialogue_step : forall items line lines items' es out items'' rs,
    answers_text items line items' es out -> dialogue items' lines items'' rs ->
    dialogue items (line :: lines) items'' ((es, out) :: rs).

(** What size_t may be. *)
Definition size_type : Prop := size_t = CUInt \/ size_t = CULong \/ size_t = CULLong.

(** An item the types allow. *)
Definition proper (i : item) : Prop :=
  in_range p size_t (it_id i) /\ in_range p size_t (it_amount i) /\
  in_range p CInt (it_source i) /\ in_range p CInt (it_type i).
End Spec.
