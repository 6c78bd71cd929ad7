(** Model of command execution: src/Coil.cpp:120-425, include/coil/detail/Bindings.h,
    AnyFunctor.h, FunctorCaller.h, FunctionWrapper.h, Context.h, NamedArgs.h, Variable.h,
    Property.h, Overloaded.h, ExecutionResult.h, CallContext.h. *)
From Coq Require Import Ascii String NArith ZArith Bool PeanoNat List.
Import ListNotations.
From Verif Require Import Util Base Lexer StringConv Serializer UMap.

(** ExecutionResult, include/coil/detail/ExecutionResult.h:10-16. *)
Record result := Result {
  r_input : input;
  r_errors : list bytes;
  r_return : option bytes;
  r_output : bytes
}.

(** A default-constructed ExecutionInput and ExecutionResult: include/coil/detail/ExecutionInput.h:9-14,
    ExecutionResult.h:10-16. *)
Definition no_input : input := Input [] [] [].
Definition empty_result : result := Result no_input [] None [].

(** C++ exceptions as the catch clauses of src/Coil.cpp:288-297 tell them apart. *)
Inductive exn := StdException (what : bytes) | OtherException.

(** detail::CallContext, include/coil/detail/CallContext.h:13-23. *)
Record callctx := CallCtx { cc_input : input; cc_result : result }.

(** CallContext::reportError, src/Coil.cpp:136-139. *)
Definition cc_reportError (c : callctx) (e : bytes) : callctx :=
  let r := cc_result c in
  CallCtx (cc_input c) (Result (r_input r) (r_errors r ++ [e]) (r_return r) (r_output r)).

(** CallContext::hasErrors, src/Coil.cpp:141-144. *)
Definition cc_hasErrors (c : callctx) : bool :=
  match r_errors (cc_result c) with [] => false | _ => true end.

(** m_callContext.result.output += str, src/Coil.cpp:341. *)
Definition cc_output (c : callctx) (s : bytes) : callctx :=
  let r := cc_result c in
  CallCtx (cc_input c) (Result (r_input r) (r_errors r) (r_return r) (r_output r ++ s)).

(** context.result.returnValue = ..., include/coil/detail/FunctorCaller.h:36. *)
Definition cc_return (c : callctx) (v : option bytes) : callctx :=
  let r := cc_result c in
  CallCtx (cc_input c) (Result (r_input r) (r_errors r) v (r_output r)).

(** Writing through the NamedValue* that NamedArgs::begin and find return
    (src/Coil.cpp:409-425; the pointers are not const).  Writing outside the array is
    an error of the handler itself and is modelled as no effect. *)
Definition cc_put_named (c : callctx) (i : nat) (nv : bytes * value) : callctx :=
  let inp := cc_input c in
  CallCtx (Input (i_name inp) (i_args inp) (set_nth (i_named inp) i nv)) (cc_result c).

Definition newline : byte := "010"%char.

(** Values of a parameter pack, include/coil/detail/FunctorCaller.h:34. *)
Fixpoint args_of (ps : list serializer) : Type :=
  match ps with [] => unit | T :: r => (carrier T * args_of r)%type end.

(** The pack Expected<UserArgs, String>... of include/coil/detail/FunctorCaller.h:26. *)
Fixpoint expecteds (ps : list serializer) : Type :=
  match ps with [] => unit | T :: r => (expected (carrier T) * expecteds r)%type end.

(** The return types a handler can have, include/coil/detail/FunctionWrapper.h:66-87,
    with TypeName<DecayT<RemovePointerT<R>>> (FunctionWrapper.h:38). *)
Inductive rtype :=
| RVoid
| RValue (T : serializer)
| RPointer (T : serializer)
| RCString (nm : naming).

Definition rcarrier (r : rtype) : Type :=
  match r with
  | RVoid => unit
  | RValue T => carrier T
  | RPointer T => option (carrier T)
  | RCString _ => option bytes
  end.

Definition rname (r : rtype) : bytes :=
  match r with
  | RVoid => lit "void"
  | RValue T => tname T
  | RPointer T => tname T
  | RCString nm => arithmeticName nm CChar
  end.

(** The text typedCall returns for a result, FunctionWrapper.h:72-86. *)
Definition rtext (r : rtype) : rcarrier r -> outcome (option bytes) :=
  match r with
  | RVoid => fun _ => Done None
  | RValue T => fun x => t <- p_text (printer_of T) x ;; Done (Some t)
  | RPointer T => fun x => t <- p_text (pointer_printer (printer_of T)) x ;; Done (Some t)
  | RCString _ => fun x => t <- p_text cstring_printer x ;; Done (Some t)
  end.

(** Lexer::parse, include/coil/detail/Lexer.h:15: any implementation may be installed. *)
Definition lexer := bytes -> outcome (expected input).

Section Exec.
(** [W]: state of the application.  [F]: the function objects the application registers
    (code and captured values). *)
Variables W F : Type.

(** What a handler can do.  A handler is a tree of the operations it performs on its
    Context, on the application state and on the Bindings object that runs it, ending in
    a return value or an exception.  [DoExecute] is a nested Bindings::execute; the
    handler sees the result or the exception that came out of it.  [Touch] is an access
    to the handler's own function object (its captures). *)
Inductive prog (R : Type) : Type :=
| Ret (r : R)
| Throw (x : exn)
| Log (s : bytes) (k : prog R)
| LogLine (s : bytes) (k : prog R)
| ReportError (e : bytes) (k : prog R)
| HasErrors (k : bool -> prog R)
| GetNamed (k : list (bytes * value) -> prog R)
| PutNamed (i : nat) (nv : bytes * value) (k : prog R)
| GetState (k : W -> prog R)
| PutState (w : W) (k : prog R)
| Touch (k : prog R)
| DoAdd (name : bytes) (fs : list F) (k : prog R)
| DoRemove (name : bytes) (k : prog R)
| DoClear (k : prog R)
| DoSetLexer (l : option lexer) (k : prog R)
| DoExecute (cmd : bytes) (k : result + exn -> prog R).

Arguments Ret {R} _.
Arguments Throw {R} _.
Arguments Log {R} _ _.
Arguments LogLine {R} _ _.
Arguments ReportError {R} _ _.
Arguments HasErrors {R} _.
Arguments GetNamed {R} _.
Arguments PutNamed {R} _ _ _.
Arguments GetState {R} _.
Arguments PutState {R} _ _.
Arguments Touch {R} _.
Arguments DoAdd {R} _ _ _.
Arguments DoRemove {R} _ _.
Arguments DoClear {R} _.
Arguments DoSetLexer {R} _ _.
Arguments DoExecute {R} _ _.

(** Sequencing, used to write handlers. *)
Fixpoint andThen {A B} (p : prog A) (k : A -> prog B) : prog B :=
  match p with
  | Ret r => k r
  | Throw x => Throw x
  | Log s p => Log s (andThen p k)
  | LogLine s p => LogLine s (andThen p k)
  | ReportError e p => ReportError e (andThen p k)
  | HasErrors f => HasErrors (fun b => andThen (f b) k)
  | GetNamed f => GetNamed (fun l => andThen (f l) k)
  | PutNamed i nv p => PutNamed i nv (andThen p k)
  | GetState f => GetState (fun w => andThen (f w) k)
  | PutState w p => PutState w (andThen p k)
  | Touch p => Touch (andThen p k)
  | DoAdd n fs p => DoAdd n fs (andThen p k)
  | DoRemove n p => DoRemove n (andThen p k)
  | DoClear p => DoClear (andThen p k)
  | DoSetLexer l p => DoSetLexer l (andThen p k)
  | DoExecute c f => DoExecute c (fun r => andThen (f r) k)
  end.

(** AnyFunctor with the FunctionWrapper it stores: AnyFunctor.h:53-85,
    FunctionWrapper.h:17-45.  [f_context] says whether the first parameter is a Context
    (ArgsTraitsImpl, FunctionWrapper.h:17-29); [f_params] are the other parameters.  The
    decayed parameter types are used throughout. *)
Record functor := Functor {
  f_context : bool;
  f_params : list serializer;
  f_result : rtype;
  f_body : args_of f_params -> prog (rcarrier f_result)
}.

(** The decayed declared parameters of a function: Context, or a type with a
    TypeSerializer. *)
Inductive param := PContext | PUser (T : serializer).
Definition declared (f : functor) : list param :=
  (if f_context f then [PContext] else []) ++ map PUser (f_params f).

(** ArgsTraitsImpl::UserArgumentTypes, FunctionWrapper.h:17-29: a leading Context is
    dropped. *)
Definition user_arguments (ps : list param) : list param :=
  match ps with PContext :: r => r | _ => ps end.

(** Types<Args...>::names, include/coil/detail/Types.h:15-26.  A Context that is not the
    first parameter does not compile. *)
Fixpoint names (ps : list param) : list bytes :=
  match ps with
  | [] => []
  | PUser T :: r => tname T :: names r
  | PContext :: r => lit "Context" :: names r
  end.

(** AnyFunctor::parameterTypes, arity, returnType: AnyFunctor.h:81-85,
    src/Coil.cpp:174-187. *)
Definition parameterTypes (f : functor) : list bytes := names (user_arguments (declared f)).
Definition arity (f : functor) : nat := length (parameterTypes f).
Definition returnType (f : functor) : bytes := rname (f_result f).

(** The function object behind each registered closure. *)
Variable code : F -> functor.

(** Platform: signedness of char (for the hash), and COIL_CONFIG_CATCH_EXCEPTIONS. *)
Variable sg : bool.
Variable catching : bool.

(** Bindings::Command, include/coil/detail/Bindings.h:20-24.  Every registered functor
    carries the identity of its heap storage (m_storage). *)
Record command := Command { c_name : bytes; c_functors : list (nat * F) }.

(** Bindings (Bindings.h:59-61) together with the application state and the next fresh
    storage identity. *)
Record state := State {
  s_lexer : option lexer;
  s_commands : umap bytes command;
  s_next : nat;
  s_world : W
}.

Definition set_commands (s : state) m := State (s_lexer s) m (s_next s) (s_world s).
Definition set_world (s : state) w := State (s_lexer s) (s_commands s) (s_next s) w.
Definition set_lexer (s : state) l := State l (s_commands s) (s_next s) (s_world s).

(** Bindings::add, src/Coil.cpp:206-219.  Simplified: the two steps "insert with an empty
    name" and "set the name to a view of the key" are one. *)
Definition add (s : state) (name : bytes) (fs : list F) : outcome state :=
  let cmd := Command name (combine (seq (s_next s) (length fs)) fs) in
  m <- insertOrAssign bytes_eqb (hash_view sg) (s_commands s) name cmd ;;
  Done (State (s_lexer s) m (s_next s + length fs) (s_world s)).

(** Bindings::remove, src/Coil.cpp:221-224; also operator[](name) = nullptr, 330-334. *)
Definition remove (s : state) (name : bytes) : outcome state :=
  m <- erase bytes_eqb (hash_view sg) (s_commands s) name ;;
  Done (set_commands s m).

(** Bindings::get, src/Coil.cpp:226-233. *)
Definition get (s : state) (name : bytes) : outcome (option command) :=
  find bytes_eqb (hash_view sg) (s_commands s) name.

(** Bindings::clear, src/Coil.cpp:235-238. *)
Definition clear_all (s : state) : state := set_commands s (clear (s_commands s)).

(** Is the heap storage of a functor still allocated?  AnyFunctor::destroy
    (src/Coil.cpp:161-167) runs when the command it belongs to is overwritten, erased or
    cleared. *)
Definition is_live (s : state) (sid : nat) : bool :=
  existsb (fun n => existsb (fun p => fst p =? sid) (c_functors (n_val n)))
          (nodes (s_commands s)).

(** A call of Bindings::execute(StringView) from a handler. *)
Definition nested_call := state -> bytes -> outcome (state * (result + exn)).

(** Running a handler: Context::log, logline, reportError, hasErrors, namedArgs
    (src/Coil.cpp:337-380) and the Bindings functions above.  [sid] is the storage of the
    handler being run. *)
Fixpoint run_prog {R} (nested : nested_call) (sid : nat) (s : state) (c : callctx)
         (p : prog R) : outcome (state * callctx * (R + exn)) :=
  match p with
  | Ret r => Done (s, c, inl r)
  | Throw x => Done (s, c, inr x)
  | Log t k => run_prog nested sid s (cc_output c t) k
  | LogLine t k => run_prog nested sid s (cc_output (cc_output c t) [newline]) k
  | ReportError e k => run_prog nested sid s (cc_reportError c e) k
  | HasErrors k => run_prog nested sid s c (k (cc_hasErrors c))
  | GetNamed k => run_prog nested sid s c (k (i_named (cc_input c)))
  | PutNamed i nv k => run_prog nested sid s (cc_put_named c i nv) k
  | GetState k => run_prog nested sid s c (k (s_world s))
  | PutState w k => run_prog nested sid (set_world s w) c k
  | Touch k => if is_live s sid then run_prog nested sid s c k else Fault UseAfterFree
  | DoAdd n fs k => s' <- add s n fs ;; run_prog nested sid s' c k
  | DoRemove n k => s' <- remove s n ;; run_prog nested sid s' c k
  | DoClear k => run_prog nested sid (clear_all s) c k
  | DoSetLexer l k => run_prog nested sid (set_lexer s l) c k
  | DoExecute cmd k =>
      sr <- nested s cmd ;;
      let (s', r) := sr : state * (result + exn) in
      run_prog nested sid s' c (k r)
  end.

(** The pack expansion TypeSerializer<UserArgs>::fromString(arguments[UserIndices])...,
    FunctorCaller.h:39-43; [i] is the first index. *)
Fixpoint convert (ps : list serializer) (i : nat) (args : list value)
  : outcome (expecteds ps) :=
  match ps with
  | [] => Done tt
  | T :: r =>
      v <- at_ args i ;;
      es <- convert r (S i) args ;;
      Done (from_value T v, es)
  end.

(** (!expectedArgs.hasValue() || ...), FunctorCaller.h:28. *)
Fixpoint any_failed (ps : list serializer) : expecteds ps -> bool :=
  match ps with
  | [] => fun _ => false
  | T :: r => fun es => match fst es with Error _ => true | Value _ => any_failed r (snd es) end
  end.

(** (reportError(context, expectedArgs), ...), FunctorCaller.h:18-23, 30. *)
Fixpoint report_failed (ps : list serializer) : expecteds ps -> callctx -> callctx :=
  match ps with
  | [] => fun _ c => c
  | T :: r => fun es c =>
      report_failed r (snd es) (match fst es with Error e => cc_reportError c e | Value _ => c end)
  end.

(** coil::move(expectedArgs).value()..., FunctorCaller.h:34; value() asserts hasValue(). *)
Fixpoint take_values (ps : list serializer) : expecteds ps -> outcome (args_of ps) :=
  match ps with
  | [] => fun _ => Done tt
  | T :: r => fun es =>
      match fst es with
      | Error _ => Fault AssertFailed
      | Value x => xs <- take_values r (snd es) ;; Done (x, xs)
      end
  end.

(** detail::invoke with FunctionWrapper::invoke and typedCall: FunctorCaller.h:25-37,
    FunctionWrapper.h:66-87, 124-128. *)
Definition invoke (nested : nested_call) (sid : nat) (f : functor) (s : state) (c : callctx)
           (es : expecteds (f_params f)) : outcome (state * callctx * (unit + exn)) :=
  if any_failed (f_params f) es then Done (s, report_failed (f_params f) es c, inl tt)
  else
    vs <- take_values (f_params f) es ;;
    r <- run_prog nested sid s c (f_body f vs) ;;
    match r with
    | (s', c', inr x) => Done (s', c', inr x)
    | (s', c', inl v) =>
        returnValue <- rtext (f_result f) v ;;
        Done (s', if cc_hasErrors c' then c' else cc_return c' returnValue, inl tt)
    end.

(** AnyFunctor::invokeTrampoline, AnyStorage::invoke, unpackAndInvoke:
    src/Coil.cpp:169-172, AnyFunctor.h:40-50, FunctorCaller.h:39-43. *)
Definition invokeTrampoline (nested : nested_call) (cl : nat * F) (s : state) (c : callctx)
  : outcome (state * callctx * (unit + exn)) :=
  let f := code (snd cl) in
  es <- convert (f_params f) 0 (i_args (cc_input c)) ;;
  invoke nested (fst cl) f s c es.

(** The search loop of execute, src/Coil.cpp:283-285; [None] if no functor has the
    arity. *)
Fixpoint dispatch (nested : nested_call) (fs : list (nat * F)) (s : state) (c : callctx)
  : outcome (option (state * callctx * (unit + exn))) :=
  match fs with
  | [] => Done None
  | f :: r =>
      if arity (code (snd f)) =? length (i_args (cc_input c))
      then x <- invokeTrampoline nested f s c ;; Done (Some x)
      else dispatch nested r s c
  end.

(** The loop building expectedStr, src/Coil.cpp:303-311; [n] is functors.size(). *)
Fixpoint expected_loop (fs : list (nat * F)) (i n : nat) (acc : bytes) : bytes :=
  match fs with
  | [] => acc
  | f :: r =>
      let acc := if (0 <? i) && negb (i =? n - 1) then acc ++ lit ", " else acc in
      let acc := if (0 <? i) && (i =? n - 1) then acc ++ lit " or " else acc in
      expected_loop r (S i) n (acc ++ printf_zu (arity (code (snd f))))
  end.

(** src/Coil.cpp:300-315.  Simplified: slength() of names of 2^31 bytes and more. *)
Definition wrongArityError (name : bytes) (fs : list (nat * F)) (n : nat) : bytes :=
  lit "Wrong number of arguments to '" ++ c_str name ++ lit "': expected " ++
  c_str (expected_loop fs 0 (length fs) []) ++ lit ", got " ++ printf_zu n.

(** Bindings::execute(CallContext&), src/Coil.cpp:261-316. *)
Definition execute_ctx (nested : nested_call) (s : state) (c : callctx)
  : outcome (state * callctx * (unit + exn)) :=
  let name := i_name (cc_input c) in
  match name with
  | [] => Done (s, cc_reportError c (lit "No function name is specified"), inl tt)
  | _ =>
      it <- get s name ;;
      match it with
      | None =>
          Done (s, cc_reportError c (lit "No function '" ++ c_str name ++ lit "' is registered"),
                inl tt)
      | Some cmd =>
          let fs := c_functors cmd in
          o <- dispatch nested fs s c ;;
          match o with
          | Some (s', c', inl tt) => Done (s', c', inl tt)
          | Some (s', c', inr x) =>
              if catching then
                match x with
                | StdException what =>
                    Done (s', cc_reportError c' (lit "Exception caught during execution: " ++
                                                 c_str what), inl tt)
                | OtherException =>
                    Done (s', cc_reportError c' (lit "Exception caught during execution"), inl tt)
                end
              else Done (s', c', inr x)
          | None =>
              Done (s, cc_reportError c (wrongArityError name fs (length (i_args (cc_input c)))),
                    inl tt)
          end
      end
  end.

(** Bindings::execute(ExecutionInput), src/Coil.cpp:240-246. *)
Definition execute_input (nested : nested_call) (s : state) (inp : input)
  : outcome (state * (result + exn)) :=
  r <- execute_ctx nested s (CallCtx inp empty_result) ;;
  match r with
  | (s', c', inr x) => Done (s', inr x)
  | (s', c', inl _) =>
      let r := cc_result c' in
      Done (s', inl (Result (cc_input c') (r_errors r) (r_return r) (r_output r)))
  end.

(** Bindings::execute(StringView), src/Coil.cpp:248-259. *)
Definition execute_text (nested : nested_call) (s : state) (cmd : bytes)
  : outcome (state * (result + exn)) :=
  match s_lexer s with
  | None => Fault NullDeref
  | Some lex =>
      i <- lex cmd ;;
      match i with
      | Error e => Done (s, inl (Result no_input [lit "Syntax error: " ++ e] None []))
      | Value inp => execute_input nested s inp
      end
  end.

(** The recursion through handlers that execute commands: [depth] bounds the nesting.
    Exceeding it is reported as [Diverges]. *)
Fixpoint nested_exec (depth : nat) : nested_call :=
  match depth with
  | O => fun _ _ => Fault Diverges
  | S d => execute_text (nested_exec d)
  end.

(** The two public entry points with nesting bound [depth]. *)
Definition exec_text (depth : nat) := execute_text (nested_exec depth).
Definition exec_input (depth : nat) := execute_input (nested_exec depth).

(** Bindings::Bindings, src/Coil.cpp:190. *)
Definition fresh_bindings (w : W) : state :=
  State (Some (parse_input sg default_cfg)) empty_map 0 w.

(** ** NamedArgs *)

(** NamedArgs::find, src/Coil.cpp:419-425. *)
Fixpoint find_named (l : list (bytes * value)) (key : bytes) : option value :=
  match l with
  | [] => None
  | (k, v) :: r => if bytes_eqb k key then Some v else find_named r key
  end.

(** NamedArgs::Error, include/coil/detail/NamedArgs.h:17-29. *)
Inductive named_error := MissingKey (msg : bytes) | TypeMismatch (msg : bytes).
Definition named_message (e : named_error) : bytes :=
  match e with MissingKey m => m | TypeMismatch m => m end.

(** NamedArgs::get, src/Coil.cpp:385-392. *)
Definition named_get (l : list (bytes * value)) (key : bytes) : value + named_error :=
  match find_named l key with
  | None => inr (MissingKey (lit "Missing named argument '" ++ c_str key ++ lit "'"))
  | Some v => inl v
  end.

(** NamedArgs::get<T>, NamedArgs.h:61-73. *)
Definition named_get_as (T : serializer) (l : list (bytes * value)) (key : bytes)
  : carrier T + named_error :=
  match named_get l key with
  | inr e => inr e
  | inl v => match from_value T v with Value x => inl x | Error e => inr (TypeMismatch e) end
  end.

(** NamedArgs::getOrReport, src/Coil.cpp:394-402. *)
Definition getOrReport {R} (key : bytes) (required : bool) (k : option value -> prog R) : prog R :=
  GetNamed (fun l =>
    match named_get l key with
    | inl v => k (Some v)
    | inr e => if required then ReportError (named_message e) (k None) else k None
    end).

(** NamedArgs::getOrReport<T>, NamedArgs.h:75-86. *)
Definition getOrReport_as (T : serializer) {R} (key : bytes) (required : bool)
           (default : option (carrier T)) (k : option (carrier T) -> prog R) : prog R :=
  GetNamed (fun l =>
    match named_get_as T l key with
    | inl x => k (Some x)
    | inr e =>
        if negb required && match e with MissingKey _ => true | TypeMismatch _ => false end
        then k default
        else ReportError (named_message e) (k None)
    end).

(** ** Variables and properties *)

(** variable for a non-const T, include/coil/detail/Variable.h:9-19: the variable is the part of the
    application state that [rd] reads and [wr] replaces. *)
Definition variable_get (T : serializer) (rd : W -> carrier T) : functor :=
  Functor false [] (RValue T) (fun _ => GetState (fun w => Ret (rd w : rcarrier (RValue T)))).
Definition variable_set (T : serializer) (rd : W -> carrier T) (wr : carrier T -> W -> W)
  : functor :=
  Functor false [T] (RValue T)
    (fun vs => GetState (fun w => PutState (wr (fst vs) w)
                 (GetState (fun w => Ret (rd w : rcarrier (RValue T)))))).
Definition variable (T : serializer) (rd : W -> carrier T) (wr : carrier T -> W -> W)
  : list functor := [variable_get T rd; variable_set T rd wr].

(** variable for a const T, Variable.h:21-31. *)
Definition const_variable (T : serializer) (rd : W -> carrier T) : list functor :=
  [variable_get T rd;
   Functor true [T] (RValue T)
     (fun _ => ReportError (lit "This variable is read-only")
                 (GetState (fun w => Ret (rd w : rcarrier (RValue T)))))].

(** property(getter, setter), include/coil/detail/Property.h:18-30, and
    bindProperty(getter, setter, object), 45-57.  The getter and the setter are arbitrary
    code. *)
Definition property (T : serializer) (getter : prog (carrier T))
           (setter : carrier T -> prog unit) : list functor :=
  [Functor false [] (RValue T) (fun _ => getter);
   Functor false [T] (RValue T) (fun vs => andThen (setter (fst vs)) (fun _ => getter))].

(** property(getter), Property.h:32-43: the rejected value is taken as a coil::Value. *)
Definition const_property (T : serializer) (getter : prog (carrier T)) : list functor :=
  [Functor false [] (RValue T) (fun _ => getter);
   Functor true [value_serializer] (RValue T)
     (fun _ => ReportError (lit "This property is read-only") getter)].

(** bindProperty(getter, object), Property.h:59-71: the rejected value is converted. *)
Definition const_bound_property (T : serializer) (getter : prog (carrier T)) : list functor :=
  [Functor false [] (RValue T) (fun _ => getter);
   Functor true [T] (RValue T)
     (fun _ => ReportError (lit "This property is read-only") getter)].
End Exec.

Arguments Ret {W F R} _.
Arguments Throw {W F R} _.
Arguments Log {W F R} _ _.
Arguments LogLine {W F R} _ _.
Arguments ReportError {W F R} _ _.
Arguments HasErrors {W F R} _.
Arguments GetNamed {W F R} _.
Arguments PutNamed {W F R} _ _ _.
Arguments GetState {W F R} _.
Arguments PutState {W F R} _ _.
Arguments Touch {W F R} _.
Arguments DoAdd {W F R} _ _ _.
Arguments DoRemove {W F R} _ _.
Arguments DoClear {W F R} _.
Arguments DoSetLexer {W F R} _ _.
Arguments DoExecute {W F R} _ _.
Arguments andThen {W F A B} _ _.
Arguments Functor {W F} _ _ _ _.
Arguments f_context {W F} _.
Arguments f_params {W F} _.
Arguments f_result {W F} _.
Arguments f_body {W F} _ _.
Arguments declared {W F} _.
Arguments parameterTypes {W F} _.
Arguments arity {W F} _.
Arguments returnType {W F} _.
Arguments Command {F} _ _.
Arguments c_name {F} _.
Arguments c_functors {F} _.
Arguments State {W F} _ _ _ _.
Arguments s_lexer {W F} _.
Arguments s_commands {W F} _.
Arguments s_next {W F} _.
Arguments s_world {W F} _.
Arguments set_commands {W F} _ _.
Arguments set_world {W F} _ _.
Arguments set_lexer {W F} _ _.
Arguments add {W F} _ _ _ _.
Arguments remove {W F} _ _ _.
Arguments get {W F} _ _ _.
Arguments clear_all {W F} _.
Arguments is_live {W F} _ _.
Arguments run_prog {W F} _ {R} _ _ _ _ _.
Arguments invoke {W F} _ _ _ _ _ _ _.
Arguments invokeTrampoline {W F} _ _ _ _ _ _.
Arguments dispatch {W F} _ _ _ _ _ _.
Arguments expected_loop {W F} _ _ _ _ _.
Arguments wrongArityError {W F} _ _ _ _.
Arguments execute_ctx {W F} _ _ _ _ _ _.
Arguments execute_input {W F} _ _ _ _ _ _.
Arguments execute_text {W F} _ _ _ _ _ _.
Arguments nested_exec {W F} _ _ _ _ _ _.
Arguments exec_text {W F} _ _ _ _ _ _.
Arguments exec_input {W F} _ _ _ _ _ _.
Arguments fresh_bindings {W F} _ _.
Arguments getOrReport {W F R} _ _ _.
Arguments getOrReport_as {W F} _ {R} _ _ _ _.
Arguments variable_get {W F} _ _.
Arguments variable_set {W F} _ _ _.
Arguments variable {W F} _ _ _.
Arguments const_variable {W F} _ _.
Arguments property {W F} _ _ _.
Arguments const_property {W F} _ _.
Arguments const_bound_property {W F} _ _.
