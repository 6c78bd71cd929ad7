(** Model of examples/encapsulation/EncapsulationExample.cpp: objects that register commands
    in a global Bindings object through a ScopedDebugCommands member, which removes the
    commands when the object is destroyed.  The registry is the map of UMap.v.  A command is
    reduced to what its handler captures; arguments, results and the text of commands are the
    subject of Exec.v. *)
From Coq Require Import Ascii String NArith ZArith Bool PeanoNat List.
Import ListNotations.
From Verif Require Import Util Base UMap.

Local Notation length := List.length.

(** What a registered handler captures: [Member o f] is a pointer to the object [o] (to its
    field [f], or [this] and a member function), as at EncapsulationExample.cpp:107-110;
    [App a] is a handler of the application that captures no such object (142-143). *)
Inductive target := App (a : nat) | Member (o field : nat).

(** [w_commands] is g_globalBindings (19), [None] if the unique_ptr is null.  [w_objects] are
    the objects that have a ScopedDebugCommands member, by identity: the names in m_names
    (63), or [None] if the object has been destroyed. *)
Record world := World {
  w_commands : option (umap bytes target);
  w_objects : list (option (list bytes))
}.

Inductive answer := NotFound | Ran (t : target).

(** What an application does. *)
Inductive op :=
| OCreate (cmds : list (bytes * nat))   (* construct an object that registers these *)
| OAdd (o : nat) (name : bytes) (field : nat)  (* m_commands[name] = ... later on *)
| OMoveConstruct (o : nat)              (* construct an object from std::move(o) *)
| OMoveAssign (o p : nat)               (* o = std::move(p) *)
| ODestroy (o : nat)
| OBind (name : bytes) (a : nat)        (* bindings[name] = ... without a scope *)
| OUnbind (name : bytes)
| OClear
| OExecute (name : bytes).

Section Scoped.
(** Signedness of char (for the hash), and UnorderedMap::erase: the library's
    ([UMap.erase]) or the repaired one ([UMap.erase_fixed]). *)
Variable sg : bool.
Variable er : umap bytes target -> bytes -> outcome (umap bytes target).

(** *g_globalBindings, 19. *)
Definition bindings (w : world) : outcome (umap bytes target) :=
  match w_commands w with Some m => Done m | None => Fault NullDeref end.
Definition set_bindings (w : world) (m : umap bytes target) : world :=
  World (Some m) (w_objects w).

(** m_names, 63, of an object that is used. *)
Definition names_of (w : world) (o : nat) : outcome (list bytes) :=
  match nth_error (w_objects w) o with
  | Some (Some ns) => Done ns
  | Some None => Fault UseAfterFree
  | None => Fault NullDeref
  end.
Definition set_names (w : world) (o : nat) (ns : option (list bytes)) : world :=
  World (w_commands w) (set_nth (w_objects w) o ns).

(** Bindings::add and Bindings::remove, src/Coil.cpp:206-224, through g_globalBindings. *)
Definition global_add (w : world) (name : bytes) (t : target) : outcome world :=
  m <- bindings w ;;
  m <- insertOrAssign bytes_eqb (hash_view sg) m name t ;;
  Done (set_bindings w m).
Definition global_remove (w : world) (name : bytes) : outcome world :=
  m <- bindings w ;;
  m <- er m name ;;
  Done (set_bindings w m).

(** ScopedDebugCommands::add, 46-51, called by the assignments to a CommandsProxy, 71-86. *)
Definition scoped_add (w : world) (o : nat) (name : bytes) (field : nat) : outcome world :=
  ns <- names_of w o ;;
  w <- global_add w name (Member o field) ;;
  Done (set_names w o (Some (ns ++ [name]))).

Fixpoint scoped_add_all (w : world) (o : nat) (cmds : list (bytes * nat)) : outcome world :=
  match cmds with
  | [] => Done w
  | (n, f) :: r => w <- scoped_add w o n f ;; scoped_add_all w o r
  end.

(** The loop of ScopedDebugCommands::clear, 58-59. *)
Fixpoint remove_all (w : world) (ns : list bytes) : outcome world :=
  match ns with
  | [] => Done w
  | n :: r => w <- global_remove w n ;; remove_all w r
  end.

(** ScopedDebugCommands::clear, 56-61. *)
Definition scoped_clear (w : world) (o : nat) : outcome world :=
  ns <- names_of w o ;;
  w <- remove_all w ns ;;
  Done (set_names w o (Some [])).

(** Constructor of an object with a member m_commands, like Subsystem, 104-112. *)
Definition create (w : world) (cmds : list (bytes * nat)) : outcome world :=
  scoped_add_all (World (w_commands w) (w_objects w ++ [Some []])) (length (w_objects w)) cmds.

(** m_names = std::move(rhs.m_names), 31 and 42.  A std::vector is empty after it was moved
    from (the standard says so for the constructor only, every implementation does it for the
    assignment as well), also after a move to itself of an empty vector. *)
Definition take_names (w : world) (o p : nat) : outcome world :=
  ns <- names_of w p ;;
  _ <- names_of w o ;;
  let w := set_names w p (Some []) in
  Done (set_names w o (Some ns)).

(** The implicit move constructor of Subsystem, which calls the one of
    ScopedDebugCommands, 28-32. *)
Definition move_construct (w : world) (p : nat) : outcome world :=
  let o := length (w_objects w) in
  w <- scoped_clear (World (w_commands w) (w_objects w ++ [Some []])) o ;;
  take_names w o p.

(** The implicit move assignment of Subsystem, which calls the one of
    ScopedDebugCommands, 39-44. *)
Definition move_assign (w : world) (o p : nat) : outcome world :=
  w <- scoped_clear w o ;;
  take_names w o p.

(** The implicit destructor of Subsystem: m_commands, the last member (130), is destroyed
    first, 34-37. *)
Definition destroy (w : world) (o : nat) : outcome world :=
  w <- scoped_clear w o ;;
  Done (set_names w o None).

(** Bindings::execute, src/Coil.cpp:261-316, reduced to the lookup of the command and the
    access of its handler to the captured object. *)
Definition execute (w : world) (name : bytes) : outcome answer :=
  m <- bindings w ;;
  c <- find bytes_eqb (hash_view sg) m name ;;
  match c with
  | None => Done NotFound
  | Some (Member o f) => _ <- names_of w o ;; Done (Ran (Member o f))
  | Some (App a) => Done (Ran (App a))
  end.

Definition quiet (w : outcome world) : outcome (world * list answer) :=
  w <- w ;; Done (w, []).

Definition step (w : world) (x : op) : outcome (world * list answer) :=
  match x with
  | OCreate cmds => quiet (create w cmds)
  | OAdd o n f => quiet (scoped_add w o n f)
  | OMoveConstruct o => quiet (move_construct w o)
  | OMoveAssign o p => quiet (move_assign w o p)
  | ODestroy o => quiet (destroy w o)
  | OBind n a => quiet (global_add w n (App a))
  | OUnbind n => quiet (global_remove w n)
  | OClear => quiet (m <- bindings w ;; Done (set_bindings w (clear m)))
  | OExecute n => a <- execute w n ;; Done (w, [a])
  end.

Fixpoint session (w : world) (xs : list op) : outcome (world * list answer) :=
  match xs with
  | [] => Done (w, [])
  | x :: r =>
      wa <- step w x ;;
      wb <- session (fst wa) r ;;
      Done (fst wb, snd wa ++ snd wb)
  end.

(** g_globalBindings = std::make_unique<coil::Bindings>(), 137. *)
Definition start : world := World (Some empty_map) [].

(** * EncapsulationExample::run *)

(** The constructor of Subsystem, 107-110. *)
Definition subsystem_commands : list (bytes * nat) :=
  [(lit "subsystem.time", 0); (lit "subsystem.counter", 1); (lit "subsystem.data", 2);
   (lit "subsystem.do_some_work", 3)].

(** The handlers of create_subsystem and destroy_subsystem, 142-143.  [sub] is the variable
    subsystem (141).  Assigning to the unique_ptr destroys the old object after the new one
    was constructed. *)
Definition handler (w : world) (sub : option nat) (a : nat) : outcome (world * option nat) :=
  if a =? 0 then
    let o := length (w_objects w) in
    w <- create w subsystem_commands ;;
    w <- match sub with Some old => destroy w old | None => Done w end ;;
    Done (w, Some o)
  else
    w <- match sub with Some old => destroy w old | None => Done w end ;;
    Done (w, None).

(** executeCommand(bindings, name), examples/common/ExamplesCommon.cpp:24-43, for a command
    with arguments the handler accepts. *)
Definition command (w : world) (sub : option nat) (name : bytes)
  : outcome (world * option nat * answer) :=
  a <- execute w name ;;
  match a with
  | Ran (App h) => ws <- handler w sub h ;; Done (ws, a)
  | _ => Done (w, sub, a)
  end.

Fixpoint commands (w : world) (sub : option nat) (names : list bytes)
  : outcome (world * option nat * list answer) :=
  match names with
  | [] => Done (w, sub, [])
  | n :: r =>
      x <- command w sub n ;;
      y <- commands (fst (fst x)) (snd (fst x)) r ;;
      Done (fst y, snd x :: snd y)
  end.

(** 137-158 with any commands in the place of those at 147-158. *)
Definition example_commands (names : list bytes) : outcome (world * option nat * list answer) :=
  w <- global_add start (lit "create_subsystem") (App 0) ;;
  w <- global_add w (lit "destroy_subsystem") (App 1) ;;
  commands w None names.

(** The rest of run: g_globalBindings becomes null (160), and then the variable subsystem goes
    out of scope. *)
Definition run_example (names : list bytes) : outcome (list answer) :=
  x <- example_commands names ;;
  let w := World None (w_objects (fst (fst x))) in
  _ <- match snd (fst x) with Some o => destroy w o | None => Done w end ;;
  Done (snd x).
End Scoped.

(** The library's erase and the repaired one as parameters of this model. *)
Definition lib_erase (sg : bool) := erase (V := target) bytes_eqb (hash_view sg).
Definition fixed_erase (sg : bool) := erase_fixed (V := target) bytes_eqb (hash_view sg).
