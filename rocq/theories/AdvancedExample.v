(** Model of examples/advanced/AdvancedExample.cpp: commands on a list of entities, and commands
    that are registered by a command while it runs. *)
From Coq Require Import Ascii String NArith ZArith Bool PeanoNat List.
Import ListNotations.
From Verif Require Import Util Base Lexer StringConv Serializer UMap Exec FloatConv FloatSerializer
  UserTypes NamedExample.

(** Entity, AdvancedExample.cpp:18-23. *)
Record entity := Entity { en_id : bytes; en_name : bytes; en_payload : bytes }.

(** A std::string_view into the text of a command: the number of the text and the bytes that
    were there while the command ran. *)
Record view := View { v_text : nat; v_bytes : bytes }.

(** The local variables of AdvancedExample::run (AdvancedExample.cpp:122-127, 155), the number of
    the command text that is executed, and the numbers of the texts that no longer exist.
    Handlers of Exec.v have no operation that fails by itself: one that dereferences a null
    pointer or reads a view of a text that no longer exists notes that in [w_wrong], where the
    session stops. *)
Record world := World {
  w_entities : list entity;
  w_angle : fval;
  w_now : nat;
  w_dead : list nat;
  w_wrong : option fault
}.
Definition set_entities l w := World l (w_angle w) (w_now w) (w_dead w) (w_wrong w).
Definition set_angle x w := World (w_entities w) x (w_now w) (w_dead w) (w_wrong w).
Definition set_wrong f w := World (w_entities w) (w_angle w) (w_now w) (w_dead w) (Some f).

(** Entity::name and Entity::payload, AdvancedExample.cpp:21-22. *)
Inductive member := MName | MPayload.
Definition read (m : member) (e : entity) : bytes :=
  match m with MName => en_name e | MPayload => en_payload e end.
Definition write (m : member) (t : bytes) (e : entity) : entity :=
  match m with
  | MName => Entity (en_id e) t (en_payload e)
  | MPayload => Entity (en_id e) (en_name e) t
  end.

(** The function objects that are registered: code and captures. *)
Inductive fn :=
| FRename | FCreate | FList | FAngleGet | FAngleSet
| FEntityGet (id : view) | FEntitySet (id : view)
| FIdGet (id : view) | FIdSet (id : view)
| FMemberGet (m : member) (id : view) | FMemberSet (m : member) (id : view).

(** EntitySystem::find, AdvancedExample.cpp:33-40: the index of the first entity with the id. *)
Fixpoint find_from (i : nat) (l : list entity) (id : bytes) : option nat :=
  match l with
  | [] => None
  | e :: r => if bytes_eqb (en_id e) id then Some i else find_from (S i) r id
  end.
Definition find_entity (l : list entity) (id : bytes) : option nat := find_from 0 l id.

(** Changing the entity a pointer refers to, as at AdvancedExample.cpp:53. *)
Fixpoint change (l : list entity) (i : nat) (f : entity -> entity) : list entity :=
  match l, i with
  | [], _ => []
  | e :: r, O => f e :: r
  | e :: r, S i => e :: change r i f
  end.

(** Undefined behaviour in a handler; the value returned does not matter. *)
Definition undefined {R} (f : fault) (r : R) : prog world fn R :=
  GetState (fun w => PutState (set_wrong f w) (Ret r)).

(** get() of AdvancedExample.cpp:141: the captures are used, and the bytes of the view are
    compared. *)
Definition get_ {R} (id : view) (bad : R) (k : option nat -> prog world fn R) : prog world fn R :=
  Touch (GetState (fun w =>
    if existsb (Nat.eqb (v_text id)) (w_dead w) then undefined UseAfterFree bad
    else k (find_entity (w_entities w) (v_bytes id)))).

(** A pointer that is dereferenced. *)
Definition deref {R} (e : option nat) (bad : R) (k : nat -> entity -> prog world fn R)
  : prog world fn R :=
  match e with
  | None => undefined NullDeref bad
  | Some i =>
      GetState (fun w =>
        match nth_error (w_entities w) i with
        | None => undefined OutOfBounds bad
        | Some x => k i x
        end)
  end.

(** [get]() { return get()->id; } and the like, AdvancedExample.cpp:143-145. *)
Definition get_text (id : view) (f : entity -> bytes) : prog world fn bytes :=
  get_ id [] (fun e => deref e [] (fun _ x => Ret (f x))).

(** TypeSerializer<Entity>, AdvancedExample.cpp:108-116: entities are only shown. *)
Definition entity_ser (tname : bytes) : serializer :=
  Ser entity tname (fun _ => Error []) (fun e => lit "EntityId{" ++ c_str (en_id e) ++ lit "}").

(** get() as the result of a command, AdvancedExample.cpp:142: the entity is shown right after the
    function has returned the pointer to it. *)
Definition get_entity (id : view) : prog world fn (option entity) :=
  get_ id None (fun e =>
    match e with
    | None => Ret None
    | Some i => GetState (fun w => Ret (nth_error (w_entities w) i))
    end).

(** entities.rename, AdvancedExample.cpp:129-138, and renameEntity, 51-54. *)
Definition rename (id newName : bytes) : prog world fn unit :=
  Touch (GetState (fun w =>
    match find_entity (w_entities w) id with
    | None => ReportError (lit "Failed to find entity '" ++ id ++ lit "'") (Ret tt)
    | Some i => PutState (set_entities (change (w_entities w) i (write MName newName)) w) (Ret tt)
    end)).

(** entities.create_entity_variable, AdvancedExample.cpp:140-146.  Every statement uses the
    captured reference to the Bindings. *)
Definition create (variableName id : bytes) : prog world fn unit :=
  GetState (fun w =>
    let v := View (w_now w) id in
    Touch (DoAdd variableName [FEntityGet v; FEntitySet v]
    (Touch (DoAdd (variableName ++ lit ".id") [FIdGet v; FIdSet v]
    (Touch (DoAdd (variableName ++ lit ".name") [FMemberGet MName v; FMemberSet MName v]
    (Touch (DoAdd (variableName ++ lit ".payload") [FMemberGet MPayload v; FMemberSet MPayload v]
    (Ret tt))))))))).

(** entities.list, AdvancedExample.cpp:148-153. *)
Definition entity_line (e : entity) : bytes :=
  c_str (en_name e) ++ tab :: c_str (en_payload e).
Fixpoint list_lines (l : list entity) : prog world fn unit :=
  match l with
  | [] => Ret tt
  | e :: l => LogLine (c_str (en_id e) ++ tab :: entity_line e) (list_lines l)
  end.
Definition list_ : prog world fn unit :=
  LogLine (lit "ID" ++ tab :: lit "Name" ++ tab :: lit "Payload")
    (LogLine (lit "--" ++ tab :: lit "----" ++ tab :: lit "-------")
      (Touch (GetState (fun w => list_lines (w_entities w))))).

Section Advanced.
(** What strtof makes of tiny values, and the name that typeid gives Entity
    (examples/common/CustomTypeName.h:17-24). *)
Variables (uf : bool) (tname : bytes).

(** angleVariable, AdvancedExample.cpp:65-105. *)
Definition angle_shown : prog world fn bytes :=
  GetState (fun w => Ret (angle_text (w_angle w))).
Definition angle_set (val : bytes) : prog world fn bytes :=
  match angle_convert uf val with
  | Error e => ReportError e (Touch angle_shown)
  | Value x => Touch (GetState (fun w => PutState (set_angle x w) angle_shown))
  end.

Definition string_get (p : prog world fn bytes) : functor world fn :=
  Functor false [] (RValue string_serializer) (fun _ => p).
(** The setter of coil::property(getter), include/coil/detail/Property.h:37-40. *)
Definition read_only {R : rtype} (p : prog world fn (rcarrier R)) : functor world fn :=
  Functor true [value_serializer] R (fun _ => ReportError (lit "This property is read-only") p).

Definition code (f : fn) : functor world fn :=
  match f with
  | FRename => Functor true [string_serializer; string_serializer] RVoid
                 (fun xs => rename (fst xs) (fst (snd xs)))
  | FCreate => Functor false [string_serializer; string_serializer] RVoid
                 (fun xs => create (fst xs) (fst (snd xs)))
  | FList => Functor true [] RVoid (fun _ => list_)
  | FAngleGet => string_get (Touch angle_shown)
  | FAngleSet => Functor true [string_serializer] (RValue string_serializer) (fun xs => angle_set (fst xs))
  | FEntityGet id => Functor false [] (RPointer (entity_ser tname)) (fun _ => get_entity id)
  | FEntitySet id => read_only (R := RPointer (entity_ser tname)) (get_entity id)
  | FIdGet id => string_get (get_text id en_id)
  | FIdSet id => read_only (R := RValue string_serializer) (get_text id en_id)
  | FMemberGet m id => string_get (get_text id (read m))
  | FMemberSet m id =>   (* the setter, then the getter: Property.h:23-27 *)
      Functor false [string_serializer] (RValue string_serializer)
        (fun xs => andThen
           (get_ id tt (fun e => deref e tt (fun i _ => GetState (fun w =>
              PutState (set_entities (change (w_entities w) i (write m (fst xs))) w) (Ret tt)))))
           (fun _ => get_text id (read m)))
  end.

(** AdvancedExample.cpp:124-127. *)
Definition initial_entities : list entity :=
  [Entity (lit "player") (lit "Player") (lit "I am a player");
   Entity (lit "npc1") (lit "NPC 1") (lit "A pretty weak NPC");
   Entity (lit "npc2") (lit "NPC 2") (lit "A strong NPC")].

(** 45.0f, AdvancedExample.cpp:155. *)
Definition initial_angle : fval := Fin false 11796480 (-18).

Definition commands : list (bytes * list fn) :=
  [(lit "entities.rename", [FRename]); (lit "entities.create_entity_variable", [FCreate]);
   (lit "entities.list", [FList]); (lit "direction", [FAngleGet; FAngleSet])].

(** AdvancedExample::run up to the first command, AdvancedExample.cpp:120-156. *)
Definition start (sg : bool) : outcome (state world fn) :=
  register sg (fresh_bindings sg (World initial_entities initial_angle 0 [] None)) commands.

(** What happens to the program: a text is executed, or the text with this number (the first has
    number 0) is destroyed or overwritten.  The texts of the example itself are literals. *)
Inductive step := Run (text : bytes) | Free (n : nat).

Definition next_text (w : world) : world :=
  World (w_entities w) (w_angle w) (S (w_now w)) (w_dead w) (w_wrong w).
Definition free_text (n : nat) (w : world) : world :=
  if n <? w_now w then World (w_entities w) (w_angle w) (w_now w) (n :: w_dead w) (w_wrong w) else w.

(** The results of the texts in order. *)
Fixpoint session (sg catching : bool) (d : nat) (s : state world fn) (l : list step)
  : outcome (state world fn * list result) :=
  match l with
  | [] => Done (s, [])
  | Free n :: l => session sg catching d (set_world s (free_text n (s_world s))) l
  | Run c :: l =>
      r <- exec_text code sg catching d s c ;;
      match snd r, w_wrong (s_world (fst r)) with
      | inr _, _ => Fault AssertFailed
      | inl _, Some f => Fault f
      | inl x, None =>
          q <- session sg catching d (set_world (fst r) (next_text (s_world (fst r)))) l ;;
          Done (fst q, x :: snd q)
      end
  end.
End Advanced.
