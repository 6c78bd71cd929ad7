(** Specification for the scoped commands of examples/encapsulation/EncapsulationExample.cpp
    (C74), in terms of what the application has done so far.  [past] lists the operations, the
    newest first. *)
From Coq Require Import Ascii String NArith ZArith Bool PeanoNat List.
Import ListNotations.
From Verif Require Import Util Base UMap UMapSpec Scoped.

Local Notation past := (list Scoped.op).

(** How many objects have been constructed; they are numbered in this order. *)
Fixpoint created (h : past) : nat :=
  match h with
  | [] => 0
  | OCreate _ :: h | OMoveConstruct _ :: h => S (created h)
  | _ :: h => created h
  end.

Definition alive (h : past) (o : nat) : Prop := o < created h /\ ~ In (ODestroy o) h.

(** The names an object is responsible for, in order. *)
Fixpoint listed (h : past) (o : nat) : list bytes :=
  match h with
  | [] => []
  | x :: h =>
      match x with
      | OCreate cmds => if o =? created h then map fst cmds else listed h o
      | OAdd p n _ => if o =? p then listed h o ++ [n] else listed h o
      | OMoveConstruct p =>
          if o =? created h then listed h p else if o =? p then [] else listed h o
      | OMoveAssign a b =>
          if o =? a then if a =? b then [] else listed h b
          else if o =? b then [] else listed h o
      | ODestroy p => if o =? p then [] else listed h o
      | _ => listed h o
      end
  end.

(** The operation [x], after [h], takes the name [n] away from whoever has it. *)
Definition takes_away (h : past) (x : Scoped.op) (n : bytes) : Prop :=
  match x with
  | OCreate cmds => In n (map fst cmds)
  | OAdd _ m _ | OBind m _ | OUnbind m => m = n
  | OMoveAssign o _ | ODestroy o => In n (listed h o)
  | OClear => True
  | OMoveConstruct _ | OExecute _ => False
  end.

(** ... and [x] gives it to [t]. *)
Definition gives (h : past) (x : Scoped.op) (n : bytes) (t : target) : Prop :=
  match x with
  | OCreate cmds => exists l r f, cmds = l ++ (n, f) :: r /\ ~ In n (map fst r) /\
                                  t = Member (created h) f
  | OAdd o m f => m = n /\ t = Member o f
  | OBind m a => m = n /\ t = App a
  | _ => False
  end.

(** The command that the name [n] should mean. *)
Fixpoint serves (h : past) (n : bytes) (t : target) : Prop :=
  match h with
  | [] => False
  | x :: h => gives h x n t \/ (serves h n t /\ ~ takes_away h x n)
  end.

(** The captured object still exists. *)
Definition target_alive (h : past) (t : target) : Prop :=
  match t with App _ => True | Member o _ => alive h o end.

Definition right_answer (h : past) (n : bytes) (a : answer) : Prop :=
  match a with
  | NotFound => forall t, ~ serves h n t
  | Ran t => serves h n t
  end.

(** Operations that concern existing objects only. *)
Definition sensible (h : past) (x : Scoped.op) : Prop :=
  match x with
  | OAdd o _ _ | OMoveConstruct o | ODestroy o => alive h o
  | OMoveAssign o p => alive h o /\ alive h p
  | _ => True
  end.
Fixpoint sensible_from (h : past) (xs : list Scoped.op) : Prop :=
  match xs with
  | [] => True
  | x :: r => sensible h x /\ sensible_from (x :: h) r
  end.

(** [xs], after [h], executes a command whose handler captured an object that no longer
    exists. *)
Definition dangling_from (h : past) (xs : list Scoped.op) : Prop :=
  exists l n r o f, xs = l ++ OExecute n :: r /\
    serves (rev l ++ h) n (Member o f) /\ ~ alive (rev l ++ h) o.

(** The answers of the executions in [xs], after [h]. *)
Inductive answered : past -> list Scoped.op -> list answer -> Prop :=
| answered_end h : answered h [] []
| answered_execute h n a xs rs : right_answer h n a -> answered (OExecute n :: h) xs rs ->
    answered h (OExecute n :: xs) (a :: rs)
| answered_other h x xs rs : (forall n, x <> OExecute n) -> answered (x :: h) xs rs ->
    answered h (x :: xs) rs.

Definition moves (x : Scoped.op) : bool :=
  match x with OMoveConstruct _ | OMoveAssign _ _ => true | _ => false end.
Definition no_moves (xs : list Scoped.op) : Prop := forall x, In x xs -> moves x = false.

(** What happens to the registry. *)
Definition events (h : past) (x : Scoped.op) : list (UMap.op bytes target) :=
  match x with
  | OCreate cmds => map (fun c => Add (fst c) (Member (created h) (snd c))) cmds
  | OAdd o n f => [Add n (Member o f)]
  | OMoveAssign o _ | ODestroy o => map Remove (listed h o)
  | OBind n a => [Add n (App a)]
  | OUnbind n => [Remove n]
  | OClear => [Clear]
  | OMoveConstruct _ | OExecute _ => []
  end.
Fixpoint registry_history (h : past) : list (UMap.op bytes target) :=
  match h with
  | [] => []
  | x :: h => registry_history h ++ events h x
  end.

(** No removal runs into the defect of UnorderedMap::erase (see C20). *)
Definition harmless_session (sg : bool) (xs : list Scoped.op) : Prop :=
  harmless_history bytes_eqb (hash_view sg) (registry_history (rev xs)).

(** * The example *)

(** Whether there is a Subsystem, and whether its commands can be executed. *)
Inductive stage := Absent | Present | Hidden.

Definition create_name := lit "create_subsystem".
Definition destroy_name := lit "destroy_subsystem".

(** create_subsystem makes the commands available unless there was a Subsystem already: its
    destruction removes the commands of its successor. *)
Definition next_stage (s : stage) (n : bytes) : stage :=
  if bytes_eqb n create_name then match s with Absent => Present | _ => Hidden end
  else if bytes_eqb n destroy_name then Absent
  else s.

Definition stage_after (ns : list bytes) : stage := fold_left next_stage ns Absent.

(** Number of Subsystems created by the commands. *)
Definition creations (ns : list bytes) : nat :=
  length (filter (fun n => bytes_eqb n create_name) ns).

(** The commands of a Subsystem and the members behind them: m_time, m_counter, m_data and
    doSomeWork. *)
Definition members : list (bytes * nat) :=
  [(lit "subsystem.time", 0); (lit "subsystem.counter", 1); (lit "subsystem.data", 2);
   (lit "subsystem.do_some_work", 3)].

(** What the command [n] does after the commands [ns]. *)
Definition example_answer (ns : list bytes) (n : bytes) (a : answer) : Prop :=
  if bytes_eqb n create_name then a = Ran (App 0)
  else if bytes_eqb n destroy_name then a = Ran (App 1)
  else
    match stage_after ns with
    | Present =>
        (exists f, In (n, f) members /\ a = Ran (Member (creations ns - 1) f)) \/
        (~ In n (map fst members) /\ a = NotFound)
    | _ => a = NotFound
    end.
