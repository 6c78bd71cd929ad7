(** Model of command execution when allocations fail: the functions of [Exec.v] with an
    arbitrary choice of the operations that throw std::bad_alloc.  src/Coil.cpp:206-316,
    include/coil/detail/FunctorCaller.h, FunctionWrapper.h. *)
From Coq Require Import Ascii String NArith ZArith Bool PeanoNat List.
Import ListNotations.
From Verif Require Import Util Base Lexer StringConv Serializer UMap Exec.

(** Which of the coming operations that allocate fail: [true] throws.  After the end of the
    list nothing fails.  An operation that allocates several times before it has an effect is
    asked once. *)
Definition luck := list bool.
Definition ask (l : luck) : bool * luck := match l with [] => (false, []) | b :: r => (b, r) end.

Section ExecThrow.
Context {W F : Type}.
Variable code : F -> functor W F.
Variables sg catching : bool.
(** The text of std::bad_alloc::what(), which the implementation chooses. *)
Variable what : bytes.
Definition bad : exn := StdException what.

Local Notation state := (state W F).

(** The part of insertOrAssign before the node is added, UnorderedMap.h:140-151: the buckets
    have grown if the name is new and there is no room for it. *)
Definition x_room (s : state) (name : bytes) : outcome state :=
  let m := s_commands s in
  i <- findNodeIndex bytes_eqb (hash_view sg) m name ;;
  match i with
  | Some _ => Done s
  | None =>
      if load_exceeds (S (length (nodes m))) (length (buckets m))
      then m1 <- rehash (hash_view sg) m (length (nodes m) * 2) ;; Done (set_commands s m1)
      else Done s
  end.

(** Bindings::add, src/Coil.cpp:206-219.  The copy of the name, the vector of functors and the
    new buckets are allocated before anything changes; the node after the buckets have grown
    (C67 has these allocations one by one). *)
Definition x_add (l : luck) (s : state) (name : bytes) (fs : list F)
  : outcome (luck * state * (unit + exn)) :=
  let (b, l) := ask l in
  if b then Done (l, s, inr bad)
  else
    s1 <- x_room s name ;;
    let (b, l) := ask l in
    if b then Done (l, s1, inr bad)
    else s' <- add sg s name fs ;; Done (l, s', inl tt).

(** CallContext::reportError, src/Coil.cpp:136-139, with the construction of the message. *)
Definition x_report (l : luck) (c : callctx) (e : bytes) : luck * callctx * (unit + exn) :=
  let (b, l) := ask l in
  if b then (l, c, inr bad) else (l, cc_reportError c e, inl tt).

Definition x_nested := luck -> state -> bytes -> outcome (luck * state * (result + exn)).

(** Running a handler.  Its own code and the Context functions it calls (src/Coil.cpp:337-380)
    may run out of memory before any of its operations; by C71 Context::log and logline have
    then written nothing.  A handler does not catch that itself; it sees the exception of a
    nested execute. *)
Fixpoint x_run {R} (nested : x_nested) (sid : nat) (l : luck) (s : state) (c : callctx)
         (p : prog W F R) : outcome (luck * state * callctx * (R + exn)) :=
  let (b, l) := ask l in
  if b then Done (l, s, c, inr bad)
  else
  match p with
  | Ret r => Done (l, s, c, inl r)
  | Throw x => Done (l, s, c, inr x)
  | Log t k => x_run nested sid l s (cc_output c t) k
  | LogLine t k => x_run nested sid l s (cc_output (cc_output c t) [newline]) k
  | ReportError e k => x_run nested sid l s (cc_reportError c e) k
  | HasErrors k => x_run nested sid l s c (k (cc_hasErrors c))
  | GetNamed k => x_run nested sid l s c (k (i_named (cc_input c)))
  | PutNamed i nv k => x_run nested sid l s (cc_put_named c i nv) k
  | GetState k => x_run nested sid l s c (k (s_world s))
  | PutState w k => x_run nested sid l (set_world s w) c k
  | Touch k => if is_live s sid then x_run nested sid l s c k else Fault UseAfterFree
  | DoAdd n fs k =>
      a <- x_add l s n fs ;;
      match a with
      | (l, s', inr x) => Done (l, s', c, inr x)
      | (l, s', inl _) => x_run nested sid l s' c k
      end
  | DoRemove n k => s' <- remove sg s n ;; x_run nested sid l s' c k
  | DoClear k => x_run nested sid l (clear_all s) c k
  | DoSetLexer lx k => x_run nested sid l (set_lexer s lx) c k
  | DoExecute cmd k =>
      a <- nested l s cmd ;;
      match a with (l, s', r) => x_run nested sid l s' c (k r) end
  end.

(** TypeSerializer<UserArgs>::fromString(arguments[UserIndices])..., FunctorCaller.h:39-43.
    The order of the conversions is not specified in C++; they have no effects, so any order
    gives these outcomes. *)
Fixpoint x_convert (ps : list serializer) (i : nat) (l : luck) (args : list value)
  : outcome (luck * (expecteds ps + exn)) :=
  match ps with
  | [] => Done (l, inl tt)
  | T :: r =>
      v <- at_ args i ;;
      let (b, l) := ask l in
      if b then Done (l, inr bad)
      else
        o <- x_convert r (S i) l args ;;
        match o with
        | (l, inr x) => Done (l, inr x)
        | (l, inl es) => Done (l, inl (from_value T v, es))
        end
  end.

(** (reportError(context, expectedArgs), ...), FunctorCaller.h:18-23, 30. *)
Fixpoint x_report_failed (ps : list serializer)
  : luck -> expecteds ps -> callctx -> luck * callctx * (unit + exn) :=
  match ps with
  | [] => fun l _ c => (l, c, inl tt)
  | T :: r => fun l es c =>
      match fst es with
      | Value _ => x_report_failed r l (snd es) c
      | Error e =>
          match x_report l c e with
          | (l, c, inr x) => (l, c, inr x)
          | (l, c, inl _) => x_report_failed r l (snd es) c
          end
      end
  end.

(** TypeSerializer<R>::toString of the result, FunctionWrapper.h:66-87; nothing is printed for
    a void handler. *)
Definition x_text (r : rtype) (l : luck) (v : rcarrier r)
  : outcome (luck * (option bytes + exn)) :=
  match r return rcarrier r -> outcome (luck * (option bytes + exn)) with
  | RVoid => fun _ => Done (l, inl None)
  | q => fun v =>
      let (b, l) := ask l in
      if b then Done (l, inr bad) else t <- rtext q v ;; Done (l, inl t)
  end v.

(** detail::invoke, FunctorCaller.h:25-37. *)
Definition x_invoke (nested : x_nested) (sid : nat) (f : functor W F) (l : luck) (s : state)
           (c : callctx) (es : expecteds (f_params f))
  : outcome (luck * state * callctx * (unit + exn)) :=
  if any_failed (f_params f) es then
    match x_report_failed (f_params f) l es c with (l, c, o) => Done (l, s, c, o) end
  else
    vs <- take_values (f_params f) es ;;
    r <- x_run nested sid l s c (f_body f vs) ;;
    match r with
    | (l, s', c', inr x) => Done (l, s', c', inr x)
    | (l, s', c', inl v) =>
        o <- x_text (f_result f) l v ;;
        match o with
        | (l, inr x) => Done (l, s', c', inr x)
        | (l, inl returnValue) =>
            Done (l, s', if cc_hasErrors c' then c' else cc_return c' returnValue, inl tt)
        end
    end.

(** AnyFunctor::invokeTrampoline, AnyStorage::invoke, unpackAndInvoke: src/Coil.cpp:169-172,
    AnyFunctor.h:40-50, FunctorCaller.h:39-43. *)
Definition x_invokeTrampoline (nested : x_nested) (cl : nat * F) (l : luck) (s : state)
           (c : callctx) : outcome (luck * state * callctx * (unit + exn)) :=
  let f := code (snd cl) in
  o <- x_convert (f_params f) 0 l (i_args (cc_input c)) ;;
  match o with
  | (l, inr x) => Done (l, s, c, inr x)
  | (l, inl es) => x_invoke nested (fst cl) f l s c es
  end.

(** The search loop of execute, src/Coil.cpp:283-285. *)
Fixpoint x_dispatch (nested : x_nested) (fs : list (nat * F)) (l : luck) (s : state) (c : callctx)
  : outcome (option (luck * state * callctx * (unit + exn))) :=
  match fs with
  | [] => Done None
  | f :: r =>
      if arity (code (snd f)) =? length (i_args (cc_input c))
      then x <- x_invokeTrampoline nested f l s c ;; Done (Some x)
      else x_dispatch nested r l s c
  end.

(** Bindings::execute(CallContext&), src/Coil.cpp:261-316.  Only the search loop is inside the
    try block; what the catch clauses throw leaves the function. *)
Definition x_execute_ctx (nested : x_nested) (l : luck) (s : state) (c : callctx)
  : outcome (luck * state * callctx * (unit + exn)) :=
  let report l s c e := match x_report l c e with (l, c, o) => Done (l, s, c, o) end in
  let name := i_name (cc_input c) in
  match name with
  | [] => report l s c (lit "No function name is specified")
  | _ =>
      it <- get sg s name ;;
      match it with
      | None => report l s c (lit "No function '" ++ c_str name ++ lit "' is registered")
      | Some cmd =>
          let fs := c_functors cmd in
          o <- x_dispatch nested fs l s c ;;
          match o with
          | Some (l, s', c', inl tt) => Done (l, s', c', inl tt)
          | Some (l, s', c', inr x) =>
              if catching then
                match x with
                | StdException text =>
                    report l s' c' (lit "Exception caught during execution: " ++ c_str text)
                | OtherException => report l s' c' (lit "Exception caught during execution")
                end
              else Done (l, s', c', inr x)
          | None => report l s c (wrongArityError code name fs (length (i_args (cc_input c))))
          end
      end
  end.

(** src/Coil.cpp:243-245, once there is a CallContext; the rest moves only. *)
Definition x_answer (nested : x_nested) (l : luck) (s : state) (inp : input)
  : outcome (luck * state * (result + exn)) :=
  r <- x_execute_ctx nested l s (CallCtx inp empty_result) ;;
  match r with
  | (l, s', c', inr x) => Done (l, s', inr x)
  | (l, s', c', inl _) =>
      let r := cc_result c' in
      Done (l, s', inl (Result (cc_input c') (r_errors r) (r_return r) (r_output r)))
  end.

(** Bindings::execute(ExecutionInput), src/Coil.cpp:240-246.  The CallContext (:242) has an
    ExecutionResult, whose empty output (ExecutionResult.h:15) allocates one byte
    (src/String.cpp:8-20, 39-55). *)
Definition x_execute_input (nested : x_nested) (l : luck) (s : state) (inp : input)
  : outcome (luck * state * (result + exn)) :=
  let (b, l) := ask l in
  if b then Done (l, s, inr bad) else x_answer nested l s inp.

(** Bindings::execute(StringView), src/Coil.cpp:248-259. *)
Definition x_execute_text (nested : x_nested) (l : luck) (s : state) (cmd : bytes)
  : outcome (luck * state * (result + exn)) :=
  match s_lexer s with
  | None => Fault NullDeref
  | Some lex =>
      let (b, l) := ask l in
      if b then Done (l, s, inr bad)
      else
        i <- lex cmd ;;
        match i with
        | Error e =>
            let (b, l) := ask l in
            if b then Done (l, s, inr bad)
            else Done (l, s, inl (Result no_input [lit "Syntax error: " ++ e] None []))
        | Value inp => x_execute_input nested l s inp
        end
  end.

(** The recursion through handlers that execute commands, as in [Exec.nested_exec]. *)
Fixpoint x_nested_exec (depth : nat) : x_nested :=
  match depth with
  | O => fun _ _ _ => Fault Diverges
  | S d => x_execute_text (x_nested_exec d)
  end.

Definition x_exec_text (depth : nat) := x_execute_text (x_nested_exec depth).
Definition x_exec_input (depth : nat) := x_execute_input (x_nested_exec depth).
End ExecThrow.
