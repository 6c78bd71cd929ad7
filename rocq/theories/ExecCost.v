(** The work done by Bindings::execute (src/Coil.cpp:240-316) and by the calls of handlers
    (include/coil/detail/FunctorCaller.h, FunctionWrapper.h): the functions of Exec.v again,
    each statement now also counting what it does. *)
From Coq Require Import Ascii String NArith ZArith Bool PeanoNat List.
Import ListNotations.
From Verif Require Import Util Base Lexer StringConv Serializer UMap UMapCost Exec.

(** What is counted of one execution:
    - [parsed]: characters given to Lexer::parse (src/Coil.cpp:250),
    - [lookup]: the work of m_commands.find (src/Coil.cpp:269),
    - [arities]: comparisons of an arity with the number of arguments (src/Coil.cpp:284),
    - [conversions]: calls of TypeSerializer::fromString (FunctorCaller.h:42),
    - [calls]: calls of handlers (FunctionWrapper.h:75, 77, 83, 85),
    - [prints]: calls of TypeSerializer::toString for a result (FunctionWrapper.h:83, 85),
    - [reports]: errors the library itself puts into the result,
    - [listed]: overloads listed in an error (src/Coil.cpp:303-311).
    What handlers do is not counted, except for the executions they start, each of which
    has an entry of its own. *)
Record own := Own {
  parsed : nat; lookup : work; arities : nat; conversions : nat;
  calls : nat; prints : nat; reports : nat; listed : nat
}.

Definition nothing : own := Own 0 no_work 0 0 0 0 0 0.
Definition plus_own (a b : own) : own :=
  Own (parsed a + parsed b) (plus_work (lookup a) (lookup b)) (arities a + arities b)
      (conversions a + conversions b) (calls a + calls b) (prints a + prints b)
      (reports a + reports b) (listed a + listed b).

Definition one_parse (n : nat) : own := Own n no_work 0 0 0 0 0 0.
Definition one_lookup (w : work) : own := Own 0 w 0 0 0 0 0 0.
Definition one_arity : own := Own 0 no_work 1 0 0 0 0 0.
Definition one_conversion : own := Own 0 no_work 0 1 0 0 0 0.
Definition one_call : own := Own 0 no_work 0 0 1 0 0 0.
Definition one_print : own := Own 0 no_work 0 0 0 1 0 0.
Definition one_report : own := Own 0 no_work 0 0 0 0 1 0.
Definition one_listed : own := Own 0 no_work 0 0 0 0 0 1.

(** A computation inside an execution: its work, the work of the executions it started, in
    the order in which they started, and its outcome.  A fault keeps the work done before
    it. *)
Definition metered (A : Type) : Type := own * list own * outcome A.

Definition unmetered {A} (o : outcome A) : metered A := (nothing, [], o).
Definition mdone {A} (a : A) : metered A := unmetered (Done a).
Definition spend (w : own) : metered unit := (w, [], Done tt).

Definition mbind {A B} (x : metered A) (k : A -> metered B) : metered B :=
  match x with
  | (w, n, Done a) => match k a with (w', n', o) => (plus_own w w', n ++ n', o) end
  | (w, n, Fault f) => (w, n, Fault f)
  end.

Notation "x <~ e ;; k" := (mbind e (fun x => k))
  (at level 61, e at next level, right associativity).

Section ExecCost.
Variables W F : Type.
Variable code : F -> functor W F.
Variable sg : bool.
Variable catching : bool.
Local Notation state := (Exec.state W F).

(** Bindings::execute(StringView) from a handler: the work of that execution, followed by
    the work of those started in it. *)
Definition nested_m := state -> bytes -> list own * outcome (state * (result + exn)).

(** Running a handler: the executions it starts are counted. *)
Fixpoint run_m {R} (nested : nested_m) (sid : nat) (s : state) (c : callctx)
         (p : prog W F R) : metered (state * callctx * (R + exn)) :=
  match p with
  | Ret r => mdone (s, c, inl r)
  | Throw x => mdone (s, c, inr x)
  | Log t k => run_m nested sid s (cc_output c t) k
  | LogLine t k => run_m nested sid s (cc_output (cc_output c t) [newline]) k
  | ReportError e k => run_m nested sid s (cc_reportError c e) k
  | HasErrors k => run_m nested sid s c (k (cc_hasErrors c))
  | GetNamed k => run_m nested sid s c (k (i_named (cc_input c)))
  | PutNamed i nv k => run_m nested sid s (cc_put_named c i nv) k
  | GetState k => run_m nested sid s c (k (s_world s))
  | PutState w k => run_m nested sid (set_world s w) c k
  | Touch k => if is_live s sid then run_m nested sid s c k else unmetered (Fault UseAfterFree)
  | DoAdd n fs k => s' <~ unmetered (add sg s n fs) ;; run_m nested sid s' c k
  | DoRemove n k => s' <~ unmetered (remove sg s n) ;; run_m nested sid s' c k
  | DoClear k => run_m nested sid (clear_all s) c k
  | DoSetLexer l k => run_m nested sid (set_lexer s l) c k
  | DoExecute cmd k =>
      sr <~ (let x := nested s cmd in (nothing, fst x, snd x)) ;;
      let (s', r) := sr : state * (result + exn) in
      run_m nested sid s' c (k r)
  end.

(** TypeSerializer<UserArgs>::fromString(arguments[UserIndices])..., FunctorCaller.h:39-43.
    All arguments are converted, also behind one that cannot be. *)
Fixpoint convert_m (ps : list serializer) (i : nat) (args : list value)
  : metered (expecteds ps) :=
  match ps with
  | [] => mdone tt
  | T :: r =>
      v <~ unmetered (at_ args i) ;;
      _ <~ spend one_conversion ;;
      es <~ convert_m r (S i) args ;;
      mdone ((from_value T v, es) : expecteds (T :: r))
  end.

(** (reportError(context, expectedArgs), ...), FunctorCaller.h:18-23, 30. *)
Fixpoint report_failed_m (ps : list serializer) : expecteds ps -> callctx -> metered callctx :=
  match ps with
  | [] => fun _ c => mdone c
  | T :: r => fun es c =>
      match fst es with
      | Error e => _ <~ spend one_report ;; report_failed_m r (snd es) (cc_reportError c e)
      | Value _ => report_failed_m r (snd es) c
      end
  end.

(** typedCall on the result of a handler, FunctionWrapper.h:66-87: void is not printed. *)
Definition rtext_m (r : rtype) (v : rcarrier r) : metered (option bytes) :=
  _ <~ spend (match r with RVoid => nothing | _ => one_print end) ;;
  unmetered (rtext r v).

(** detail::invoke with FunctionWrapper::invoke: FunctorCaller.h:25-37. *)
Definition invoke_m (nested : nested_m) (sid : nat) (f : functor W F) (s : state) (c : callctx)
           (es : expecteds (f_params f)) : metered (state * callctx * (unit + exn)) :=
  if any_failed (f_params f) es then
    c' <~ report_failed_m (f_params f) es c ;; mdone (s, c', inl tt)
  else
    vs <~ unmetered (take_values (f_params f) es) ;;
    _ <~ spend one_call ;;
    r <~ run_m nested sid s c (f_body f vs) ;;
    match r with
    | (s', c', inr x) => mdone (s', c', inr x)
    | (s', c', inl v) =>
        returnValue <~ rtext_m (f_result f) v ;;
        mdone (s', if cc_hasErrors c' then c' else cc_return c' returnValue, inl tt)
    end.

(** AnyFunctor::invokeTrampoline, src/Coil.cpp:169-172. *)
Definition invokeTrampoline_m (nested : nested_m) (cl : nat * F) (s : state) (c : callctx)
  : metered (state * callctx * (unit + exn)) :=
  let f := code (snd cl) in
  es <~ convert_m (f_params f) 0 (i_args (cc_input c)) ;;
  invoke_m nested (fst cl) f s c es.

(** The search loop of execute, src/Coil.cpp:283-285. *)
Fixpoint dispatch_m (nested : nested_m) (fs : list (nat * F)) (s : state) (c : callctx)
  : metered (option (state * callctx * (unit + exn))) :=
  match fs with
  | [] => mdone None
  | f :: r =>
      _ <~ spend one_arity ;;
      if arity (code (snd f)) =? length (i_args (cc_input c))
      then x <~ invokeTrampoline_m nested f s c ;; mdone (Some x)
      else dispatch_m nested r s c
  end.

(** The loop building expectedStr, src/Coil.cpp:303-311. *)
Fixpoint expected_loop_m (fs : list (nat * F)) (i n : nat) (acc : bytes) : metered bytes :=
  match fs with
  | [] => mdone acc
  | f :: r =>
      _ <~ spend one_listed ;;
      let acc := if (0 <? i) && negb (i =? n - 1) then acc ++ lit ", " else acc in
      let acc := if (0 <? i) && (i =? n - 1) then acc ++ lit " or " else acc in
      expected_loop_m r (S i) n (acc ++ printf_zu (arity (code (snd f))))
  end.

(** An error put into the result by the library, src/Coil.cpp:136-139, 265, 272. *)
Definition report_m (s : state) (c : callctx) (e : bytes)
  : metered (state * callctx * (unit + exn)) :=
  _ <~ spend one_report ;; mdone (s, cc_reportError c e, inl tt).

(** src/Coil.cpp:300-315. *)
Definition wrongArity_m (s : state) (c : callctx) (name : bytes) (fs : list (nat * F)) (n : nat)
  : metered (state * callctx * (unit + exn)) :=
  expectedStr <~ expected_loop_m fs 0 (length fs) [] ;;
  report_m s c (lit "Wrong number of arguments to '" ++ c_str name ++ lit "': expected " ++
                c_str expectedStr ++ lit ", got " ++ printf_zu n).

(** Bindings::execute(CallContext&), src/Coil.cpp:261-316. *)
Definition execute_ctx_m (nested : nested_m) (s : state) (c : callctx)
  : metered (state * callctx * (unit + exn)) :=
  let name := i_name (cc_input c) in
  match name with
  | [] => report_m s c (lit "No function name is specified")
  | _ =>
      it <~ (let x := find_w bytes_eqb (hash_view sg) (s_commands s) name in
             (one_lookup (fst x), [], snd x)) ;;
      match it with
      | None => report_m s c (lit "No function '" ++ c_str name ++ lit "' is registered")
      | Some cmd =>
          let fs := c_functors cmd in
          o <~ dispatch_m nested fs s c ;;
          match o with
          | Some (s', c', inl tt) => mdone (s', c', inl tt)
          | Some (s', c', inr x) =>
              if catching then
                match x with
                | StdException what =>
                    report_m s' c' (lit "Exception caught during execution: " ++ c_str what)
                | OtherException => report_m s' c' (lit "Exception caught during execution")
                end
              else mdone (s', c', inr x)
          | None => wrongArity_m s c name fs (length (i_args (cc_input c)))
          end
      end
  end.

(** Bindings::execute(ExecutionInput), src/Coil.cpp:240-246. *)
Definition execute_input_m (nested : nested_m) (s : state) (inp : input)
  : metered (state * (result + exn)) :=
  r <~ execute_ctx_m nested s (CallCtx inp empty_result) ;;
  match r with
  | (s', c', inr x) => mdone (s', inr x)
  | (s', c', inl _) =>
      let r := cc_result c' in
      mdone (s', inl (Result (cc_input c') (r_errors r) (r_return r) (r_output r)))
  end.

(** Bindings::execute(StringView), src/Coil.cpp:248-259. *)
Definition execute_text_m (nested : nested_m) (s : state) (cmd : bytes)
  : metered (state * (result + exn)) :=
  match s_lexer s with
  | None => unmetered (Fault NullDeref)
  | Some lex =>
      _ <~ spend (one_parse (length cmd)) ;;
      i <~ unmetered (lex cmd) ;;
      match i with
      | Error e =>
          _ <~ spend one_report ;;
          mdone (s, inl (Result no_input [lit "Syntax error: " ++ e] None []))
      | Value inp => execute_input_m nested s inp
      end
  end.

(** The recursion through handlers that execute commands; an execution has one entry. *)
Definition entered {A} (x : metered A) : list own * outcome A :=
  match x with (w, n, o) => (w :: n, o) end.
Fixpoint nested_exec_m (depth : nat) : nested_m :=
  match depth with
  | O => fun _ _ => ([], Fault Diverges)
  | S d => fun s cmd => entered (execute_text_m (nested_exec_m d) s cmd)
  end.

(** The two public entry points with nesting bound [depth]. *)
Definition exec_text_m (depth : nat) := execute_text_m (nested_exec_m depth).
Definition exec_input_m (depth : nat) := execute_input_m (nested_exec_m depth).
End ExecCost.

Arguments run_m {W F} _ {R} _ _ _ _ _.
Arguments invoke_m {W F} _ _ _ _ _ _ _.
Arguments invokeTrampoline_m {W F} _ _ _ _ _ _.
Arguments dispatch_m {W F} _ _ _ _ _ _.
Arguments expected_loop_m {W F} _ _ _ _ _.
Arguments report_m {W F} _ _ _.
Arguments wrongArity_m {W F} _ _ _ _ _ _.
Arguments execute_ctx_m {W F} _ _ _ _ _ _.
Arguments execute_input_m {W F} _ _ _ _ _ _.
Arguments execute_text_m {W F} _ _ _ _ _ _.
Arguments nested_exec_m {W F} _ _ _ _ _ _.
Arguments exec_text_m {W F} _ _ _ _ _ _.
Arguments exec_input_m {W F} _ _ _ _ _ _.
