(** Specification of the commands of examples/advanced: what they answer, what they change, and
    when they have undefined behaviour.  From the models only the representation of entities,
    views and members is used, and how the angle is shown. *)
From Coq Require Import Ascii String NArith ZArith Bool PeanoNat List.
Import ListNotations.
From Verif Require Import Util Base LexerSpec Serializer SerializerSpec Lexer
  FloatConv FloatConvSpec ExecSpec UserTypes UserTypesSpec NamedExampleSpec AdvancedExample.

Local Notation length := List.length.

(** What a command is. *)
Inductive meaning :=
| Renames | Creates | Lists | Angle
| TheEntity (id : view) | TheId (id : view) | TheMember (m : member) (id : view).

(** The entities; the angle; the commands, the newest first; how many texts were executed; which
    of them no longer exist. *)
Record scene := Scene {
  entities : list entity;
  the_angle : fval;
  defined : list (bytes * meaning);
  count : nat;
  gone : list nat
}.

(** The newest definition counts. *)
Definition means (sc : scene) (name : bytes) (m : meaning) : Prop :=
  exists a b, defined sc = a ++ (name, m) :: b /\ ~ In name (map fst a).
Definition meaningless (sc : scene) (name : bytes) : Prop := ~ In name (map fst (defined sc)).

(** The first entity with the id. *)
Definition located (l : list entity) (id : bytes) (a : list entity) (e : entity) (b : list entity) : Prop :=
  l = a ++ e :: b /\ en_id e = id /\ ~ In id (map en_id a).
Definition missing (l : list entity) (id : bytes) : Prop := ~ In id (map en_id l).

(** What two of the fields hold afterwards. *)
Definition named (e : entity) (t : bytes) : entity := Entity (en_id e) t (en_payload e).
Definition loaded (e : entity) (t : bytes) : entity := Entity (en_id e) (en_name e) t.
Inductive updated (e : entity) (t : bytes) : member -> entity -> Prop :=
| updated_name : updated e t MName (named e t)
| updated_payload : updated e t MPayload (loaded e t).
Inductive holds_text (e : entity) : member -> bytes -> Prop :=
| holds_name : holds_text e MName (en_name e)
| holds_payload : holds_text e MPayload (en_payload e).

(** The table of entities. *)
Inductive entity_rows : list entity -> bytes -> Prop :=
| rows_nil : entity_rows [] []
| rows_cons : forall e l i n p t r,
    before_nul (en_id e) i -> before_nul (en_name e) n -> before_nul (en_payload e) p ->
    tabulated [i; n; p] t -> entity_rows l r -> entity_rows (e :: l) (t ++ nl :: r).
Definition entity_head (t : bytes) : Prop :=
  exists a b, tabulated (map lit ["ID"; "Name"; "Payload"]%string) a /\
    tabulated (map lit ["--"; "----"; "-------"]%string) b /\ t = a ++ nl :: b ++ [nl].

(** How many arguments a command takes. *)
Inductive takes : meaning -> list nat -> Prop :=
| takes_rename : takes Renames [2]
| takes_create : takes Creates [2]
| takes_list : takes Lists [0]
| takes_angle : takes Angle [0; 1]
| takes_entity : forall id, takes (TheEntity id) [0; 1]
| takes_id : forall id, takes (TheId id) [0; 1]
| takes_member : forall m id, takes (TheMember m id) [0; 1].

(** The arguments of these have to be single texts. *)
Inductive wants_texts : meaning -> nat -> Prop :=
| wants_rename : wants_texts Renames 2
| wants_create : wants_texts Creates 2
| wants_angle : wants_texts Angle 1
| wants_member : forall m id, wants_texts (TheMember m id) 1.
Inductive complaints : list (list bytes) -> list bytes -> Prop :=
| complaints_nil : complaints [] []
| complaints_fine : forall s r es, complaints r es -> complaints ([s] :: r) es
| complaints_bad : forall v e r es, complaint text_kind v e -> complaints r es ->
    complaints (v :: r) (e :: es).

(** The four commands for a variable, the newest first. *)
Definition new_commands (var : bytes) (id : view) : list (bytes * meaning) :=
  [(var ++ lit ".payload", TheMember MPayload id); (var ++ lit ".name", TheMember MName id);
   (var ++ lit ".id", TheId id); (var, TheEntity id)].

Section Spec.
Variable uf : bool.
Variable C : classes.

Definition with_entities l sc := Scene l (the_angle sc) (defined sc) (count sc) (gone sc).
Definition with_angle x sc := Scene (entities sc) x (defined sc) (count sc) (gone sc).
Definition with_commands l sc := Scene (entities sc) (the_angle sc) (l ++ defined sc) (count sc) (gone sc).

(** [id] can be read. *)
Definition there (sc : scene) (id : view) : Prop := ~ In (v_text id) (gone sc).

(** [does sc name pos sc' es ret out]: on a command with this name and these arguments the scene
    becomes [sc'], the errors [es] are reported, [ret] is returned and [out] is the output. *)
Inductive does (sc : scene) (name : bytes) (pos : list (list bytes))
  : scene -> list bytes -> option bytes -> bytes -> Prop :=
| does_rename : forall id t a e b,
    name <> [] -> means sc name Renames -> pos = [[id]; [t]] -> located (entities sc) id a e b ->
    does sc name pos (with_entities (a ++ named e t :: b) sc) [] None []
| does_rename_unknown : forall id t,
    name <> [] -> means sc name Renames -> pos = [[id]; [t]] -> missing (entities sc) id ->
    does sc name pos sc [lit "Failed to find entity '" ++ id ++ lit "'"] None []
| does_create : forall var id,
    name <> [] -> means sc name Creates -> pos = [[var]; [id]] -> var <> name ->
    does sc name pos (with_commands (new_commands var (View (count sc) id)) sc) [] None []
| does_list : forall head rows,
    name <> [] -> means sc name Lists -> pos = [] -> entity_head head -> entity_rows (entities sc) rows ->
    does sc name pos sc [] None (head ++ rows)
| does_show_angle :
    name <> [] -> means sc name Angle -> pos = [] ->
    does sc name pos sc [] (Some (printf_g (the_angle sc) ++ lit " degrees")) []
| does_turn : forall t x,
    name <> [] -> means sc name Angle -> pos = [[t]] -> angle uf degrees_per_radian t x ->
    does sc name pos (with_angle x sc) [] (Some (printf_g x ++ lit " degrees")) []
| does_not_turn : forall t e,
    name <> [] -> means sc name Angle -> pos = [[t]] -> angle_error uf degrees_per_radian t e ->
    does sc name pos sc [e] None []
| does_show_entity : forall id a e b shown,
    name <> [] -> means sc name (TheEntity id) -> pos = [] -> there sc id ->
    located (entities sc) (v_bytes id) a e b -> before_nul (en_id e) shown ->
    does sc name pos sc [] (Some (lit "EntityId{" ++ shown ++ lit "}")) []
| does_show_nothing : forall id,
    name <> [] -> means sc name (TheEntity id) -> pos = [] -> there sc id ->
    missing (entities sc) (v_bytes id) ->
    does sc name pos sc [] (Some (lit "null")) []
| does_keep_entity : forall id v,
    name <> [] -> means sc name (TheEntity id) -> pos = [v] -> there sc id ->
    does sc name pos sc [lit "This property is read-only"] None []
| does_show_id : forall id a e b,
    name <> [] -> means sc name (TheId id) -> pos = [] -> there sc id ->
    located (entities sc) (v_bytes id) a e b ->
    does sc name pos sc [] (Some (v_bytes id)) []
| does_keep_id : forall id v a e b,
    name <> [] -> means sc name (TheId id) -> pos = [v] -> there sc id ->
    located (entities sc) (v_bytes id) a e b ->
    does sc name pos sc [lit "This property is read-only"] None []
| does_show_member : forall m id a e b t,
    name <> [] -> means sc name (TheMember m id) -> pos = [] -> there sc id ->
    located (entities sc) (v_bytes id) a e b -> holds_text e m t ->
    does sc name pos sc [] (Some t) []
| does_set_member : forall m id a e b t e',
    name <> [] -> means sc name (TheMember m id) -> pos = [[t]] -> there sc id ->
    located (entities sc) (v_bytes id) a e b -> updated e t m e' ->
    does sc name pos (with_entities (a ++ e' :: b) sc) [] (Some t) []
| does_arguments : forall m es,
    name <> [] -> means sc name m -> wants_texts m (length pos) -> complaints pos es -> es <> [] ->
    does sc name pos sc es None []
| does_count : forall m l e,
    name <> [] -> means sc name m -> takes m l -> ~ In (length pos) l -> arity_message name l (length pos) e ->
    does sc name pos sc [e] None []
| does_unknown : forall e, name <> [] -> meaningless sc name -> unknown_message name e ->
    does sc name pos sc [e] None []
| does_nothing : name = [] -> does sc name pos sc [lit "No function name is specified"] None [].

(** Commands that read the id of an entity variable: these also dereference the pointer. *)
Inductive reads_id : meaning -> view -> list (list bytes) -> bool -> Prop :=
| reads_entity : forall id pos, length pos <= 1 -> reads_id (TheEntity id) id pos false
| reads_the_id : forall id pos, length pos <= 1 -> reads_id (TheId id) id pos true
| reads_member : forall m id, reads_id (TheMember m id) id [] true
| reads_set_member : forall m id t, reads_id (TheMember m id) id [[t]] true.

(** What goes wrong. *)
Inductive goes_wrong (sc : scene) (name : bytes) (pos : list (list bytes)) : fault -> Prop :=
| wrong_self : forall id,   (* the command replaces itself and uses its captures afterwards *)
    name <> [] -> means sc name Creates -> pos = [[name]; [id]] -> goes_wrong sc name pos UseAfterFree
| wrong_gone : forall m id b,   (* the text with the id no longer exists *)
    name <> [] -> means sc name m -> reads_id m id pos b -> In (v_text id) (gone sc) ->
    goes_wrong sc name pos UseAfterFree
| wrong_null : forall m id,   (* there is no such entity *)
    name <> [] -> means sc name m -> reads_id m id pos true -> there sc id ->
    missing (entities sc) (v_bytes id) -> goes_wrong sc name pos NullDeref.

(** Command texts. *)
Inductive answers_text (sc : scene) (line : bytes) : scene -> list bytes -> option bytes -> bytes -> Prop :=
| answers_syntax : forall e, LexerSpec.command C line (inr e) ->
    answers_text sc line sc [lit "Syntax error: " ++ message e] None []
| answers_command : forall name pos nd sc' es ret out,
    LexerSpec.command C line (inl (SInput name pos nd)) -> does sc name pos sc' es ret out ->
    answers_text sc line sc' es ret out.
Definition breaks_text (sc : scene) (line : bytes) (f : fault) : Prop :=
  exists name pos nd, LexerSpec.command C line (inl (SInput name pos nd)) /\ goes_wrong sc name pos f.

Definition counted sc := Scene (entities sc) (the_angle sc) (defined sc) (S (count sc)) (gone sc).
Definition without n sc := Scene (entities sc) (the_angle sc) (defined sc) (count sc) (n :: gone sc).

(** A dialogue: errors, result and output of every text, in order. *)
Inductive dialogue : scene -> list step -> scene -> list (list bytes * option bytes * bytes) -> Prop :=
| dialogue_end : forall sc, dialogue sc [] sc []
| dialogue_run : forall sc line steps sc' es ret out sc'' rs,
    answers_text sc line sc' es ret out -> dialogue (counted sc') steps sc'' rs ->
    dialogue sc (Run line :: steps) sc'' ((es, ret, out) :: rs)
| dialogue_free : forall sc n steps sc' rs,
    n < count sc -> dialogue (without n sc) steps sc' rs -> dialogue sc (Free n :: steps) sc' rs
| dialogue_free_none : forall sc n steps sc' rs,
    count sc <= n -> dialogue sc steps sc' rs -> dialogue sc (Free n :: steps) sc' rs.

(** A dialogue that ends in undefined behaviour. *)
Inductive disaster : scene -> list step -> fault -> Prop :=
| disaster_here : forall sc line steps f, breaks_text sc line f -> disaster sc (Run line :: steps) f
| disaster_run : forall sc line steps sc' es ret out f,
    answers_text sc line sc' es ret out -> disaster (counted sc') steps f -> disaster sc (Run line :: steps) f
| disaster_free : forall sc n steps f,
    n < count sc -> disaster (without n sc) steps f -> disaster sc (Free n :: steps) f
| disaster_free_none : forall sc n steps f,
    count sc <= n -> disaster sc steps f -> disaster sc (Free n :: steps) f.

(** A text that registers variables for the entity [id] under the name [var]. *)
Definition creates (line var id : bytes) : Prop :=
  exists nd, LexerSpec.command C line (inl (SInput (lit "entities.create_entity_variable") [[var]; [id]] nd)).

(** The texts that are executed. *)
Fixpoint texts (steps : list step) : list bytes :=
  match steps with [] => [] | Run t :: r => t :: texts r | Free _ :: r => texts r end.
End Spec.

(** The scene in the beginning. *)
Definition first_scene : scene :=
  Scene [Entity (lit "player") (lit "Player") (lit "I am a player");
         Entity (lit "npc1") (lit "NPC 1") (lit "A pretty weak NPC");
         Entity (lit "npc2") (lit "NPC 2") (lit "A strong NPC")]
    (Fin false 11796480 (-18))
    [(lit "direction", Angle); (lit "entities.list", Lists);
     (lit "entities.create_entity_variable", Creates); (lit "entities.rename", Renames)] 0 [].
