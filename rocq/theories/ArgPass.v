(** How the converted arguments travel from TypeSerializer::fromString to the
    functor: objects, value categories, moves and destructions
    (include/coil/detail/FunctorCaller.h:25-43, FunctionWrapper.h:54-128,
    Expected.h:73,212-216, Utility.h move).

    Exec.v passes a list of values; here every object on the way is tracked.  The
    order in which the arguments of one call are evaluated and the order in which
    its parameters are destroyed are not fixed by C++, so both are arbitrary. *)
From Coq Require Import Bool PeanoNat Lia List.
From Verif Require Import Base.
Import ListNotations.

(** The type of a parameter: T, T const, T&, T const&, T&&, T const&&, where T is
    the decayed type the serializer produces. *)
Inductive refkind := NoRef | LRef | RRef.
Record ptype := PT { p_ref : refkind; p_const : bool }.

(** The type of a parameter as it appears in the type of the function, from which
    FuncTraits reads Args (FuncTraits.h:12-71): a const on the parameter itself is
    dropped by the language. *)
Definition adjusted (p : ptype) : ptype :=
  match p_ref p with NoRef => PT NoRef false | _ => p end.

(** Value category of an expression. *)
Inductive cat := Lvalue | Xvalue | Prvalue.

(** What the language does to initialize a parameter: build the object in place,
    bind a reference, call T(T&&), call T(T const&). *)
Inductive how := InPlace | BindRef | MoveInit | CopyInit.

(** Initialization of a parameter of type [p] from an expression of type T
    (const if [k]) and category [c]; [None] if it does not compile. *)
Definition init_how (p : ptype) (c : cat) (k : bool) : option how :=
  match p_ref p, c with
  | NoRef, Prvalue => Some InPlace
  | NoRef, Xvalue => Some (if k then CopyInit else MoveInit)
  | NoRef, Lvalue => Some CopyInit
  | LRef, Prvalue => if p_const p then Some InPlace else None
  | LRef, Xvalue => if p_const p then Some BindRef else None
  | LRef, Lvalue => if k && negb (p_const p) then None else Some BindRef
  | RRef, Prvalue => Some InPlace
  | RRef, Xvalue => if k && negb (p_const p) then None else Some BindRef
  | RRef, Lvalue => None
  end.

(** The name of a parameter of type [p], used as an expression. *)
Definition named (p : ptype) : cat * bool := (Lvalue, p_const p).
(** coil::move, Utility.h:7-11: a cast to an rvalue reference. *)
Definition moved_expr (e : cat * bool) : cat * bool := (Xvalue, snd e).
(** Expected::value() &&, Expected.h:212-216. *)
Definition expected_value : cat * bool := (Xvalue, false).

Section ArgPass.
Context {V E S : Type}.
(** What T(T&&) leaves in its argument, and what it leaves there if it throws. *)
Variable moved : V -> V.
Variable torn : V -> V.
(** TypeSerializer<R>::toString. *)
Variable show : V -> S.

(** What happens, the latest first. *)
Inductive event :=
| EMake                      (* fromString or createContext has made an object *)
| EMove                      (* T(T&&) is called *)
| ECopy                      (* T(T const&) is called *)
| EDestroy                   (* ~T *)
| ECall (vs : list V)        (* the functor is entered and sees these values *)
| EShow.                     (* toString is called *)

(** Decides whether the call just recorded throws. *)
Variable raises : list event -> bool.

(** All objects ever made; [None] once destroyed. *)
Record state := St { objs : list (option V); log : list event }.

Definition note (e : event) (st : state) : state := St (objs st) (e :: log st).

Fixpoint set_nth {A} (l : list A) (i : nat) (x : A) : list A :=
  match l, i with
  | [], _ => []
  | _ :: l, 0 => x :: l
  | y :: l, Datatypes.S i => y :: set_nth l i x
  end.

Definition get (st : state) (o : nat) : outcome V :=
  match nth_error (objs st) o with Some (Some v) => Done v | _ => Fault UseAfterFree end.
Definition put (st : state) (o : nat) (v : V) : outcome state :=
  match nth_error (objs st) o with
  | Some (Some _) => Done (St (set_nth (objs st) o (Some v)) (log st))
  | _ => Fault UseAfterFree
  end.
Definition make (st : state) (v : V) : state * nat :=
  (St (objs st ++ [Some v]) (log st), List.length (objs st)).
Definition destroy (st : state) (o : nat) : outcome state :=
  match nth_error (objs st) o with
  | Some (Some _) => Done (St (set_nth (objs st) o None) (EDestroy :: log st))
  | _ => Fault BadLifetime
  end.
Fixpoint destroy_all (st : state) (os : list nat) : outcome state :=
  match os with
  | [] => Done st
  | o :: os => st <- destroy st o ;; destroy_all st os
  end.

(** T(T&&) and T(T const&) of the object [o]; [None] if the constructor throws. *)
Definition move_from (st : state) (o : nat) : outcome (state * option nat) :=
  v <- get st o ;;
  let st := note EMove st in
  if raises (log st) then st <- put st o (torn v) ;; Done (st, None)
  else st <- put st o (moved v) ;;
       let '(st, n) := make st v in Done (st, Some n).
Definition copy_from (st : state) (o : nat) : outcome (state * option nat) :=
  v <- get st o ;;
  let st := note ECopy st in
  if raises (log st) then Done (st, None)
  else let '(st, n) := make st v in Done (st, Some n).

(** An argument: a prvalue about to be made, or an expression naming an object. *)
Inductive arg := ATemp (v : V) | AObj (e : cat * bool) (o : nat).

(** Initialize one parameter: the object it is or refers to, and whether the call
    has to destroy that object. *)
Definition init_param (p : ptype) (a : arg) (st : state) : outcome (state * option (nat * bool)) :=
  match a with
  | ATemp v =>
      match init_how p Prvalue false with
      | Some InPlace => let '(st, n) := make (note EMake st) v in Done (st, Some (n, true))
      | _ => Fault BadLifetime (* does not compile *)
      end
  | AObj (c, k) o =>
      match init_how p c k with
      | Some BindRef => Done (st, Some (o, false))
      | Some MoveInit =>
          r <- move_from st o ;;
          let '(st, n) := r in Done (st, option_map (fun n => (n, true)) n)
      | Some CopyInit =>
          r <- copy_from st o ;;
          let '(st, n) := r in Done (st, option_map (fun n => (n, true)) n)
      | _ => Fault BadLifetime (* does not compile *)
      end
  end.

(** The parameters of one call, in the given order.  The result: the objects of
    the parameters ([None] if a constructor threw) and those of them to destroy,
    the latest first. *)
Fixpoint init_params (ps : list ptype) (args : list arg) (order : list nat)
         (st : state) (hs owned : list nat) : outcome (state * option (list nat) * list nat) :=
  match order with
  | [] => Done (st, Some hs, owned)
  | i :: order =>
      match nth_error ps i, nth_error args i with
      | Some p, Some a =>
          r <- init_param p a st ;;
          let '(st, x) := r in
          match x with
          | None => Done (st, None, owned)
          | Some (o, own) =>
              init_params ps args order st (set_nth hs i o) (if own : bool then o :: owned else owned)
          end
      | _, _ => Fault OutOfBounds
      end
  end.

Inductive result A := Ok (a : A) | Thrown.
Arguments Ok {A} a.
Arguments Thrown {A}.

(** [order level n]: the order in which the [n] arguments of the call at [level]
    are evaluated; [dorder level os]: the order in which its parameters are
    destroyed. *)
Variable order : nat -> nat -> list nat.
Variable dorder : nat -> list nat -> list nat.

(** A call: initialize the parameters, run the body, destroy the parameters, also
    if the body throws. *)
Definition pass {A} (level : nat) (ps : list ptype) (args : list arg)
           (body : state -> list nat -> outcome (state * result A)) (st : state)
  : outcome (state * result A) :=
  let n := List.length args in
  r <- init_params ps args (order level n) st (repeat 0 n) [] ;;
  let '(st, hs, owned) := r in
  match hs with
  | None => st <- destroy_all st owned ;; Done (st, Thrown)
  | Some hs =>
      r <- body st hs ;;
      let '(st, x) := r in
      st <- destroy_all st (dorder level owned) ;;
      Done (st, x)
  end.

(** The user's functor: from the values it is given it computes what it leaves in
    its parameters and how it ends; [RetRef i] returns a reference to its i-th
    parameter. *)
Inductive ending := RetVoid | RetValue (v : V) | RetRef (i : nat) | FThrows.
Variable func : list V -> list V * ending.
(** Its parameters as declared. *)
Variable sig : list ptype.

(** It may change what it holds by value or by a reference to non-const. *)
Definition writable (p : ptype) : bool := negb (p_const p).

Fixpoint get_all (st : state) (hs : list nat) : outcome (list V) :=
  match hs with
  | [] => Done []
  | h :: hs => v <- get st h ;; vs <- get_all st hs ;; Done (v :: vs)
  end.

Fixpoint write_back (st : state) (ps : list ptype) (hs : list nat) (vs : list V) : outcome state :=
  match ps, hs, vs with
  | p :: ps, h :: hs, v :: vs =>
      if writable p then st <- put st h v ;; write_back st ps hs vs
      else write_back st ps hs vs
  | _, _, _ => Done st
  end.

(** What the functor returns: nothing, a value, or a reference to an object. *)
Inductive returned := RVoid | RVal (v : V) | RObj (o : nat).

Definition run_func (st : state) (hs : list nat) : outcome (state * result returned) :=
  vs <- get_all st hs ;;
  let st := note (ECall vs) st in
  let '(vs', r) := func vs in
  st <- write_back st sig hs vs' ;;
  Done (st, match r with
            | RetVoid => Ok RVoid
            | RetValue v => Ok (RVal v)
            | RetRef i => Ok (RObj (nth i hs 0))
            | FThrows => Thrown
            end).

(** coil::move(args)... *)
Fixpoint forwarded (ps : list ptype) (hs : list nat) : list arg :=
  match ps, hs with
  | p :: ps, h :: hs => AObj (moved_expr (named p)) h :: forwarded ps hs
  | _, _ => []
  end.

(** Args... of FunctionWrapper. *)
Definition wrapper_args : list ptype := map adjusted sig.

Definition show_value (st : state) (v : V) : state * result (option S) :=
  let st := note EShow st in
  if raises (log st) then (st, Thrown) else (st, Ok (Some (show v))).

(** FunctionWrapper::typedCall, FunctionWrapper.h:66-87 (levels 2 and 3: the
    parameters of typedCall and those of the functor). *)
Definition typed_call (args : list arg) (st : state) : outcome (state * result (option S)) :=
  pass 2 wrapper_args args (fun st hs =>
    r <- pass 3 sig (forwarded wrapper_args hs) run_func st ;;
    let '(st, x) := r in
    match x with
    | Thrown => Done (st, Thrown)
    | Ok RVoid => Done (st, Ok None)
    | Ok (RVal v) => Done (show_value st v)
    | Ok (RObj o) => v <- get st o ;; Done (show_value st v)
    end) st.

(** FunctionWrapper::invoke, FunctionWrapper.h:124-128 (level 1). *)
Definition wrapper_invoke (args : list arg) (st : state) : outcome (state * result (option S)) :=
  pass 1 wrapper_args args (fun st hs => typed_call (forwarded wrapper_args hs) st) st.

(** TypeSerializer<UserArgs>::fromString(...): a value, an error, an exception. *)
Inductive conversion := CValue (v : V) | CError (e : E) | CThrows.
(** A parameter of detail::invoke: an Expected with a value object or an error. *)
Inductive expected_arg := XVal (o : nat) | XErr (e : E).

(** The arguments of detail::invoke, FunctorCaller.h:42 (level 0).  The Expected a
    fromString returns is the parameter itself. *)
Fixpoint convert_all (convs : list conversion) (order : list nat) (st : state)
         (xs : list expected_arg) (owned : list nat)
  : outcome (state * option (list expected_arg) * list nat) :=
  match order with
  | [] => Done (st, Some xs, owned)
  | i :: order =>
      match nth_error convs i with
      | None => Fault OutOfBounds
      | Some CThrows => Done (st, None, owned)
      | Some (CError e) => convert_all convs order st (set_nth xs i (XErr e)) owned
      | Some (CValue v) =>
          let '(st, o) := make (note EMake st) v in
          convert_all convs order st (set_nth xs i (XVal o)) (o :: owned)
      end
  end.

Inductive answer := Reported (es : list E) | Returned (s : option S).

(** (reportError(context, expectedArgs), ...), FunctorCaller.h:30: left to right. *)
Fixpoint errors_of (xs : list expected_arg) : list E :=
  match xs with
  | [] => []
  | XVal _ :: xs => errors_of xs
  | XErr e :: xs => e :: errors_of xs
  end.
(** coil::move(expectedArgs).value()..., FunctorCaller.h:34; value() asserts
    hasValue(). *)
Fixpoint values_of (xs : list expected_arg) : outcome (list arg) :=
  match xs with
  | [] => Done []
  | XVal o :: xs => l <- values_of xs ;; Done (AObj expected_value o :: l)
  | XErr _ :: xs => Fault AssertFailed
  end.
Definition any_error (xs : list expected_arg) : bool :=
  existsb (fun x => match x with XErr _ => true | XVal _ => false end) xs.

(** unpackAndInvoke and detail::invoke, FunctorCaller.h:25-43; [ctx] is what
    createContext makes if the functor asks for a Context first. *)
Definition invoke (ctx : option V) (convs : list conversion) (st : state)
  : outcome (state * result answer) :=
  let n := List.length convs in
  r <- convert_all convs (order 0 n) st (repeat (XVal 0) n) [] ;;
  let '(st, xs, owned) := r in
  match xs with
  | None => st <- destroy_all st owned ;; Done (st, Thrown)
  | Some xs =>
      if any_error xs then
        st <- destroy_all st (dorder 0 owned) ;; Done (st, Ok (Reported (errors_of xs)))
      else
        l <- values_of xs ;;
        r <- wrapper_invoke (match ctx with Some c => [ATemp c] | None => [] end ++ l) st ;;
        let '(st, x) := r in
        st <- destroy_all st (dorder 0 owned) ;;
        Done (st, match x with Ok s => Ok (Returned s) | Thrown => Thrown end)
  end.

End ArgPass.

Arguments Ok {A} a.
Arguments Thrown {A}.
Arguments event V : clear implicits.
Arguments state V : clear implicits.

(** Whether the three calls compile for a functor with these parameters: invoke
    from value() or createContext, typedCall and the functor from coil::move. *)
Definition initializes (p : ptype) (e : cat * bool) : bool :=
  match init_how p (fst e) (snd e) with Some _ => true | None => false end.
Definition compiles_param (first : cat * bool) (p : ptype) : bool :=
  let a := adjusted p in
  initializes a first && initializes a (moved_expr (named a)) && initializes p (moved_expr (named a)).
Definition compiles (ctx : option ptype) (ps : list ptype) : bool :=
  match ctx with Some p => compiles_param (Prvalue, false) p | None => true end
  && forallb (compiles_param expected_value) ps.
