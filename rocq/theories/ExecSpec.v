(** Specification of command execution: a big-step semantics of handlers and commands that
    does not mention call contexts, fuel or loops. *)
From Coq Require Import Ascii String NArith ZArith Bool PeanoNat List.
Import ListNotations.
From Verif Require Import Util Base StringConvSpec SerializerSpec Serializer Lexer UMap Exec.

(** ** Messages *)

(** A list of numbers as in "1, 2 or 3". *)
Inductive enumeration : list nat -> bytes -> Prop :=
| enum_none : enumeration [] []
| enum_one : forall n a, canonical (Z.of_nat n) a -> enumeration [n] a
| enum_two : forall n m a b,
    canonical (Z.of_nat n) a -> canonical (Z.of_nat m) b ->
    enumeration [n; m] (a ++ lit " or " ++ b)
| enum_more : forall n m k l a r,
    canonical (Z.of_nat n) a -> enumeration (m :: k :: l) r ->
    enumeration (n :: m :: k :: l) (a ++ lit ", " ++ r).

Definition unknown_message (name msg : bytes) : Prop :=
  exists shown, before_nul name shown /\
    msg = lit "No function '" ++ shown ++ lit "' is registered".

Definition arity_message (name : bytes) (arities : list nat) (given : nat) (msg : bytes) : Prop :=
  exists shown list_ n, before_nul name shown /\ enumeration arities list_ /\
    canonical (Z.of_nat given) n /\
    msg = lit "Wrong number of arguments to '" ++ shown ++ lit "': expected " ++ list_ ++
          lit ", got " ++ n.

Inductive exception_message : exn -> bytes -> Prop :=
| exception_std : forall what shown, before_nul what shown ->
    exception_message (StdException what) (lit "Exception caught during execution: " ++ shown)
| exception_other : exception_message OtherException (lit "Exception caught during execution").

(** ** Arguments *)

(** All arguments convert, to these values. *)
Inductive converts : forall ps : list serializer, list value -> args_of ps -> Prop :=
| converts_nil : converts [] [] tt
| converts_cons : forall T ps v vs x xs,
    from_value T v = Value x -> converts ps vs xs -> converts (T :: ps) (v :: vs) (x, xs).

(** The errors of the arguments that do not convert, in order. *)
Inductive conversion_errors : list serializer -> list value -> list bytes -> Prop :=
| ce_nil : conversion_errors [] [] []
| ce_good : forall T ps v vs x es,
    from_value T v = Value x -> conversion_errors ps vs es ->
    conversion_errors (T :: ps) (v :: vs) es
| ce_bad : forall T ps v vs e es,
    from_value T v = Error e -> conversion_errors ps vs es ->
    conversion_errors (T :: ps) (v :: vs) (e :: es).

(** ** Results *)

(** The text of a returned value; nothing for a void handler. *)
Inductive shows : forall r : rtype, rcarrier r -> option bytes -> Prop :=
| shows_void : forall x, shows RVoid x None
| shows_value : forall T x, shows (RValue T) x (Some (to_text T x))
| shows_null : forall T, shows (RPointer T) None (Some (lit "null"))
| shows_pointer : forall T x, shows (RPointer T) (Some x) (Some (to_text T x))
| shows_cstring : forall nm s t, before_nul s t -> shows (RCString nm) (Some s) (Some t).

(** What a handler does that shows in the result. *)
Inductive event := Logged (s : bytes) | LoggedLine (s : bytes) | Reported (e : bytes).

Fixpoint output_of (evs : list event) : bytes :=
  match evs with
  | [] => []
  | Logged s :: r => s ++ output_of r
  | LoggedLine s :: r => s ++ [ascii_of_nat 10] ++ output_of r
  | Reported _ :: r => output_of r
  end.

Fixpoint errors_of (evs : list event) : list bytes :=
  match evs with
  | [] => []
  | Reported e :: r => e :: errors_of r
  | _ :: r => errors_of r
  end.

Definition has_error (evs : list event) (b : bool) : Prop :=
  b = true <-> exists e, In (Reported e) evs.

(** A result without effects: errors only. *)
Definition failure (inp : input) (es : list bytes) : result := Result inp es None [].

(** Replacing the [i]-th element, if there is one. *)
Inductive replaced {A} (x : A) : nat -> list A -> list A -> Prop :=
| replaced_here : forall y l, replaced x 0 (y :: l) (x :: l)
| replaced_there : forall i y l l', replaced x i l l' -> replaced x (S i) (y :: l) (y :: l')
| replaced_outside : forall i, replaced x i [] [].

Section Spec.
Context {W F : Type}.
Variable code : F -> functor W F.
Variable sg catching : bool.

Local Notation state := (state W F).

(** The first of the overloads with [n] parameters. *)
Definition chosen (fs : list (nat * F)) (n : nat) (f : nat * F) : Prop :=
  exists before after, fs = before ++ f :: after /\
    length (f_params (code (snd f))) = n /\
    forall g, In g before -> length (f_params (code (snd g))) <> n.

Definition none_accepts (fs : list (nat * F)) (n : nat) : Prop :=
  forall g, In g fs -> length (f_params (code (snd g))) <> n.

(** The storage [sid] belongs to a registered command. *)
Definition stored (s : state) (sid : nat) : Prop :=
  exists n f, In n (nodes (s_commands s)) /\ In (sid, f) (c_functors (n_val n)).

(** [runs R sid s evs nm p s' evs' nm' fin]: handler program [p], stored in [sid], started in
    state [s] after the events [evs] and with named arguments [nm], ends in [s'], [evs'],
    [nm'] with [fin].

    [answers s inp s' r]: executing the parsed command [inp] gives [r] and state [s'].

    [executes s cmd s' r]: executing the text [cmd] gives [r] and state [s']. *)
Inductive runs : forall R : Type, nat -> state -> list event -> list (bytes * value) ->
    prog W F R -> state -> list event -> list (bytes * value) -> R + exn -> Prop :=
| runs_ret : forall R sid s evs nm (r : R), runs R sid s evs nm (Ret r) s evs nm (inl r)
| runs_throw : forall R sid s evs nm x, runs R sid s evs nm (Throw x) s evs nm (inr x)
| runs_log : forall R sid s evs nm t k s' evs' nm' fin,
    runs R sid s (evs ++ [Logged t]) nm k s' evs' nm' fin ->
    runs R sid s evs nm (Log t k) s' evs' nm' fin
| runs_logline : forall R sid s evs nm t k s' evs' nm' fin,
    runs R sid s (evs ++ [LoggedLine t]) nm k s' evs' nm' fin ->
    runs R sid s evs nm (LogLine t k) s' evs' nm' fin
| runs_report : forall R sid s evs nm e k s' evs' nm' fin,
    runs R sid s (evs ++ [Reported e]) nm k s' evs' nm' fin ->
    runs R sid s evs nm (ReportError e k) s' evs' nm' fin
| runs_has_errors : forall R sid s evs nm k b s' evs' nm' fin,
    has_error evs b ->
    runs R sid s evs nm (k b) s' evs' nm' fin ->
    runs R sid s evs nm (HasErrors k) s' evs' nm' fin
| runs_get_named : forall R sid s evs nm k s' evs' nm' fin,
    runs R sid s evs nm (k nm) s' evs' nm' fin ->
    runs R sid s evs nm (GetNamed k) s' evs' nm' fin
| runs_put_named : forall R sid s evs nm i nv nm1 k s' evs' nm' fin,
    replaced nv i nm nm1 ->
    runs R sid s evs nm1 k s' evs' nm' fin ->
    runs R sid s evs nm (PutNamed i nv k) s' evs' nm' fin
| runs_get_state : forall R sid s evs nm k s' evs' nm' fin,
    runs R sid s evs nm (k (s_world s)) s' evs' nm' fin ->
    runs R sid s evs nm (GetState k) s' evs' nm' fin
| runs_put_state : forall R sid l m n w0 evs nm w k s' evs' nm' fin,
    runs R sid (State l m n w) evs nm k s' evs' nm' fin ->
    runs R sid (State l m n w0) evs nm (PutState w k) s' evs' nm' fin
| runs_touch : forall R sid s evs nm k s' evs' nm' fin,
    stored s sid ->
    runs R sid s evs nm k s' evs' nm' fin ->
    runs R sid s evs nm (Touch k) s' evs' nm' fin
| runs_add : forall R sid s evs nm name fs k s1 s' evs' nm' fin,
    add sg s name fs = Done s1 ->
    runs R sid s1 evs nm k s' evs' nm' fin ->
    runs R sid s evs nm (DoAdd name fs k) s' evs' nm' fin
| runs_remove : forall R sid s evs nm name k s1 s' evs' nm' fin,
    remove sg s name = Done s1 ->
    runs R sid s1 evs nm k s' evs' nm' fin ->
    runs R sid s evs nm (DoRemove name k) s' evs' nm' fin
| runs_clear : forall R sid s evs nm k s' evs' nm' fin,
    runs R sid (clear_all s) evs nm k s' evs' nm' fin ->
    runs R sid s evs nm (DoClear k) s' evs' nm' fin
| runs_set_lexer : forall R sid l0 m n w evs nm l k s' evs' nm' fin,
    runs R sid (State l m n w) evs nm k s' evs' nm' fin ->
    runs R sid (State l0 m n w) evs nm (DoSetLexer l k) s' evs' nm' fin
| runs_execute : forall R sid s evs nm cmd k s1 r s' evs' nm' fin,
    executes s cmd s1 r ->
    runs R sid s1 evs nm (k r) s' evs' nm' fin ->
    runs R sid s evs nm (DoExecute cmd k) s' evs' nm' fin

with answers : state -> input -> state -> result + exn -> Prop :=
| answers_unnamed : forall s inp,
    i_name inp = [] ->
    answers s inp s (inl (failure inp [lit "No function name is specified"]))
| answers_unknown : forall s inp msg,
    i_name inp <> [] -> get sg s (i_name inp) = Done None ->
    unknown_message (i_name inp) msg ->
    answers s inp s (inl (failure inp [msg]))
| answers_arity : forall s inp cmd msg,
    i_name inp <> [] -> get sg s (i_name inp) = Done (Some cmd) ->
    none_accepts (c_functors cmd) (length (i_args inp)) ->
    arity_message (i_name inp) (map (fun f => length (f_params (code (snd f)))) (c_functors cmd))
                  (length (i_args inp)) msg ->
    answers s inp s (inl (failure inp [msg]))
| answers_conversion : forall s inp cmd f es,
    i_name inp <> [] -> get sg s (i_name inp) = Done (Some cmd) ->
    chosen (c_functors cmd) (length (i_args inp)) f ->
    conversion_errors (f_params (code (snd f))) (i_args inp) es -> es <> [] ->
    answers s inp s (inl (failure inp es))
| answers_return : forall s inp cmd f vs s' evs nm v t,
    i_name inp <> [] -> get sg s (i_name inp) = Done (Some cmd) ->
    chosen (c_functors cmd) (length (i_args inp)) f ->
    converts (f_params (code (snd f))) (i_args inp) vs ->
    runs _ (fst f) s [] (i_named inp) (f_body (code (snd f)) vs) s' evs nm (inl v) ->
    shows (f_result (code (snd f))) v t ->
    answers s inp s'
      (inl (Result (Input (i_name inp) (i_args inp) nm) (errors_of evs)
                   (match errors_of evs with [] => t | _ => None end) (output_of evs)))
| answers_caught : forall s inp cmd f vs s' evs nm x msg,
    i_name inp <> [] -> get sg s (i_name inp) = Done (Some cmd) ->
    chosen (c_functors cmd) (length (i_args inp)) f ->
    converts (f_params (code (snd f))) (i_args inp) vs ->
    runs _ (fst f) s [] (i_named inp) (f_body (code (snd f)) vs) s' evs nm (inr x) ->
    catching = true -> exception_message x msg ->
    answers s inp s'
      (inl (Result (Input (i_name inp) (i_args inp) nm) (errors_of evs ++ [msg]) None
                   (output_of evs)))
| answers_thrown : forall s inp cmd f vs s' evs nm x,
    i_name inp <> [] -> get sg s (i_name inp) = Done (Some cmd) ->
    chosen (c_functors cmd) (length (i_args inp)) f ->
    converts (f_params (code (snd f))) (i_args inp) vs ->
    runs _ (fst f) s [] (i_named inp) (f_body (code (snd f)) vs) s' evs nm (inr x) ->
    catching = false ->
    answers s inp s' (inr x)

with executes : state -> bytes -> state -> result + exn -> Prop :=
| executes_syntax : forall s cmd lex e,
    s_lexer s = Some lex -> lex cmd = Done (Error e) ->
    executes s cmd s (inl (failure (Input [] [] []) [lit "Syntax error: " ++ e]))
| executes_parsed : forall s cmd lex inp s' r,
    s_lexer s = Some lex -> lex cmd = Done (Value inp) ->
    answers s inp s' r ->
    executes s cmd s' r.
End Spec.

(** ** Kinds of handlers *)

Inductive opkind :=
| KThrow        (* throws *)
| KContext      (* uses its Context *)
| KEditNamed    (* overwrites the named arguments it was given *)
| KRead         (* reads the application state *)
| KWrite        (* writes the application state *)
| KTouch        (* uses its captures *)
| KRegistry     (* adds or removes commands, changes the lexer *)
| KExecute.     (* executes commands *)

(** The program uses operations of the given kinds only. *)
Fixpoint only {W F R} (ok : opkind -> bool) (p : prog W F R) : Prop :=
  match p with
  | Ret _ => True
  | Throw _ => ok KThrow = true
  | Log _ k => ok KContext = true /\ only ok k
  | LogLine _ k => ok KContext = true /\ only ok k
  | ReportError _ k => ok KContext = true /\ only ok k
  | HasErrors k => ok KContext = true /\ forall b, only ok (k b)
  | GetNamed k => ok KContext = true /\ forall l, only ok (k l)
  | PutNamed _ _ k => ok KEditNamed = true /\ only ok k
  | GetState k => ok KRead = true /\ forall w, only ok (k w)
  | PutState _ k => ok KWrite = true /\ only ok k
  | Touch k => ok KTouch = true /\ only ok k
  | DoAdd _ _ k => ok KRegistry = true /\ only ok k
  | DoRemove _ k => ok KRegistry = true /\ only ok k
  | DoClear k => ok KRegistry = true /\ only ok k
  | DoSetLexer _ k => ok KRegistry = true /\ only ok k
  | DoExecute _ k => ok KExecute = true /\ forall r, only ok (k r)
  end.

(** A function without a Context parameter cannot log, report or see named arguments. *)
Definition no_context (k : opkind) : bool :=
  match k with KContext | KEditNamed => false | _ => true end.
Definition keeps_named (k : opkind) : bool := match k with KEditNamed => false | _ => true end.
Definition no_nesting (k : opkind) : bool := match k with KExecute => false | _ => true end.
(** Only reads the application state, and possibly throws. *)
Definition observing (k : opkind) : bool :=
  match k with KThrow | KRead => true | _ => false end.
(** Anything but changing the registry and executing commands. *)
Definition simple (k : opkind) : bool :=
  match k with KRegistry | KExecute => false | _ => true end.

Definition well_typed {W F} (f : functor W F) : Prop :=
  f_context f = false -> forall vs, only no_context (f_body f vs).

(** ** Named arguments *)

(** [v] belongs to the first argument named [key]. *)
Definition first_named (key : bytes) (l : list (bytes * value)) (v : value) : Prop :=
  exists before after, l = before ++ (key, v) :: after /\ forall x, In x before -> fst x <> key.
Definition no_named (key : bytes) (l : list (bytes * value)) : Prop :=
  forall x, In x l -> fst x <> key.
Definition missing_message (key msg : bytes) : Prop :=
  exists shown, before_nul key shown /\ msg = lit "Missing named argument '" ++ shown ++ lit "'".

(** ** Registers *)

(** What one command sent to a variable does: old value, arguments, new value, errors,
    return value. *)
Inductive register (T : serializer) (name : bytes) :
  carrier T -> list value -> carrier T -> list bytes -> option bytes -> Prop :=
| register_read : forall x, register T name x [] x [] (Some (to_text T x))
| register_write : forall x v y, from_value T v = Value y ->
    register T name x [v] y [] (Some (to_text T y))
| register_bad : forall x v e, from_value T v = Error e -> register T name x [v] x [e] None
| register_arity : forall x a b l msg,
    arity_message name [0; 1] (length (a :: b :: l)) msg ->
    register T name x (a :: b :: l) x [msg] None.

(** The value of a variable after a history of commands: the last converted value
    assigned to it. *)
Fixpoint latest (T : serializer) (name : bytes) (x : carrier T) (h : list input) : carrier T :=
  match h with
  | [] => x
  | inp :: h =>
      latest T name
        (if bytes_eqb (i_name inp) name then
           match i_args inp with
           | [v] => match from_value T v with Value y => y | Error _ => x end
           | _ => x
           end
         else x) h
  end.

(** ** Tracing *)

(** The same program over an application state with an additional log. *)
Fixpoint lift {W F L R} (p : prog W F R) : prog (W * L) F R :=
  match p with
  | Ret r => Ret r
  | Throw x => Throw x
  | Log s k => Log s (lift k)
  | LogLine s k => LogLine s (lift k)
  | ReportError e k => ReportError e (lift k)
  | HasErrors k => HasErrors (fun b => lift (k b))
  | GetNamed k => GetNamed (fun l => lift (k l))
  | PutNamed i nv k => PutNamed i nv (lift k)
  | GetState k => GetState (fun w => lift (k (fst w)))
  | PutState w k => GetState (fun w0 => PutState (w, snd w0) (lift k))
  | Touch k => Touch (lift k)
  | DoAdd n fs k => DoAdd n fs (lift k)
  | DoRemove n k => DoRemove n (lift k)
  | DoClear k => DoClear (lift k)
  | DoSetLexer l k => DoSetLexer l (lift k)
  | DoExecute c k => DoExecute c (fun r => lift (k r))
  end.

(** A call of a handler: which function, with which arguments. *)
Definition call {W F} (code : F -> functor W F) : Type :=
  {f : F & args_of (f_params (code f))}.

(** Handlers that first record that they were called. *)
Definition traced {W F} (code : F -> functor W F) (f : F) : functor (W * list (call code)) F :=
  Functor (f_context (code f)) (f_params (code f)) (f_result (code f))
    (fun vs => GetState (fun w => PutState (fst w, snd w ++ [existT _ f vs])
                 (lift (f_body (code f) vs)))).

(** ** Using captures *)

(** [careful ok fixed own live p]: [p] uses its captures only while its own command is sure
    to be registered.  [own] is the name it is registered under, [live] says whether it is
    sure to be still registered.  Commands it adds must satisfy [ok], lexers it installs
    must not use freed memory; commands whose name is [fixed] are not added, removed or
    cleared, so that they are still registered after executing another command. *)
Definition clean_lexer (l : option lexer) : Prop :=
  forall lex t, l = Some lex -> lex t <> Fault UseAfterFree.

Fixpoint careful {W F R} (ok : bytes -> F -> Prop) (fixed : bytes -> bool)
  (own : bytes) (live : bool) (p : prog W F R) : Prop :=
  match p with
  | Ret _ => True
  | Throw _ => True
  | Log _ k => careful ok fixed own live k
  | LogLine _ k => careful ok fixed own live k
  | ReportError _ k => careful ok fixed own live k
  | HasErrors k => forall b, careful ok fixed own live (k b)
  | GetNamed k => forall l, careful ok fixed own live (k l)
  | PutNamed _ _ k => careful ok fixed own live k
  | GetState k => forall w, careful ok fixed own live (k w)
  | PutState _ k => careful ok fixed own live k
  | Touch k => live = true /\ careful ok fixed own live k
  | DoAdd n fs k =>
      (forall f, In f fs -> ok n f) /\ fixed n = false /\
      careful ok fixed own (live && negb (bytes_eqb n own)) k
  | DoRemove n k => fixed n = false /\ careful ok fixed own (live && negb (bytes_eqb n own)) k
  | DoClear k => (forall n, fixed n = false) /\ careful ok fixed own false k
  | DoSetLexer l k => clean_lexer l /\ careful ok fixed own live k
  | DoExecute _ k => forall r, careful ok fixed own (live && fixed own) (k r)
  end.
