(** Specification of command execution when memory may run out at any time: the big-step
    semantics of [ExecSpec.v] with the ways a step can throw std::bad_alloc. *)
From Coq Require Import Ascii String NArith ZArith Bool PeanoNat List.
Import ListNotations.
From Verif Require Import Util Base StringConvSpec SerializerSpec Serializer Lexer UMap Exec ExecSpec.

Section Spec.
Context {W F : Type}.
Variable code : F -> functor W F.
Variable sg catching : bool.
(** The exception thrown by an allocation that fails. *)
Variable alloc : exn.

Local Notation state := (state W F).

(** The name is new to the table and the table is full. *)
Definition fills (s : state) (name : bytes) : Prop :=
  findNodeIndex bytes_eqb (hash_view sg) (s_commands s) name = Done None /\
  load_exceeds (S (length (nodes (s_commands s)))) (length (buckets (s_commands s))) = true.

(** What an addition leaves behind that fails after the table has grown. *)
Definition late (s : state) (name : bytes) (s' : state) : Prop :=
  fills s name /\
  exists m, rehash (hash_view sg) (s_commands s) (length (nodes (s_commands s)) * 2) = Done m /\
            s' = set_commands s m.

(** [x_runs]: a handler program, stopped by a failing allocation or not.

    [attempts s inp f s' evs nm fin]: calling the functor [f] with the arguments of [inp] ends
    after the events [evs] with the text of the result or an exception.

    [x_answers], [x_executes]: executing a parsed command, a text. *)
Inductive x_runs : forall R : Type, nat -> state -> list event -> list (bytes * value) ->
    prog W F R -> state -> list event -> list (bytes * value) -> R + exn -> Prop :=
| xr_fails : forall R sid s evs nm (p : prog W F R), x_runs R sid s evs nm p s evs nm (inr alloc)
| xr_fails_late : forall R sid s evs nm name fs (k : prog W F R) s',
    late s name s' -> x_runs R sid s evs nm (DoAdd name fs k) s' evs nm (inr alloc)
| xr_ret : forall R sid s evs nm (r : R), x_runs R sid s evs nm (Ret r) s evs nm (inl r)
| xr_throw : forall R sid s evs nm x, x_runs R sid s evs nm (Throw x) s evs nm (inr x)
| xr_log : forall R sid s evs nm t k s' evs' nm' fin,
    x_runs R sid s (evs ++ [Logged t]) nm k s' evs' nm' fin ->
    x_runs R sid s evs nm (Log t k) s' evs' nm' fin
| xr_logline : forall R sid s evs nm t k s' evs' nm' fin,
    x_runs R sid s (evs ++ [LoggedLine t]) nm k s' evs' nm' fin ->
    x_runs R sid s evs nm (LogLine t k) s' evs' nm' fin
| xr_report : forall R sid s evs nm e k s' evs' nm' fin,
    x_runs R sid s (evs ++ [Reported e]) nm k s' evs' nm' fin ->
    x_runs R sid s evs nm (ReportError e k) s' evs' nm' fin
| xr_has_errors : forall R sid s evs nm k b s' evs' nm' fin,
    has_error evs b ->
    x_runs R sid s evs nm (k b) s' evs' nm' fin ->
    x_runs R sid s evs nm (HasErrors k) s' evs' nm' fin
| xr_get_named : forall R sid s evs nm k s' evs' nm' fin,
    x_runs R sid s evs nm (k nm) s' evs' nm' fin ->
    x_runs R sid s evs nm (GetNamed k) s' evs' nm' fin
| xr_put_named : forall R sid s evs nm i nv nm1 k s' evs' nm' fin,
    replaced nv i nm nm1 ->
    x_runs R sid s evs nm1 k s' evs' nm' fin ->
    x_runs R sid s evs nm (PutNamed i nv k) s' evs' nm' fin
| xr_get_state : forall R sid s evs nm k s' evs' nm' fin,
    x_runs R sid s evs nm (k (s_world s)) s' evs' nm' fin ->
    x_runs R sid s evs nm (GetState k) s' evs' nm' fin
| xr_put_state : forall R sid l m n w0 evs nm w k s' evs' nm' fin,
    x_runs R sid (State l m n w) evs nm k s' evs' nm' fin ->
    x_runs R sid (State l m n w0) evs nm (PutState w k) s' evs' nm' fin
| xr_touch : forall R sid s evs nm k s' evs' nm' fin,
    stored s sid ->
    x_runs R sid s evs nm k s' evs' nm' fin ->
    x_runs R sid s evs nm (Touch k) s' evs' nm' fin
| xr_add : forall R sid s evs nm name fs k s1 s' evs' nm' fin,
    add sg s name fs = Done s1 ->
    x_runs R sid s1 evs nm k s' evs' nm' fin ->
    x_runs R sid s evs nm (DoAdd name fs k) s' evs' nm' fin
| xr_remove : forall R sid s evs nm name k s1 s' evs' nm' fin,
    remove sg s name = Done s1 ->
    x_runs R sid s1 evs nm k s' evs' nm' fin ->
    x_runs R sid s evs nm (DoRemove name k) s' evs' nm' fin
| xr_clear : forall R sid s evs nm k s' evs' nm' fin,
    x_runs R sid (clear_all s) evs nm k s' evs' nm' fin ->
    x_runs R sid s evs nm (DoClear k) s' evs' nm' fin
| xr_set_lexer : forall R sid l0 m n w evs nm l k s' evs' nm' fin,
    x_runs R sid (State l m n w) evs nm k s' evs' nm' fin ->
    x_runs R sid (State l0 m n w) evs nm (DoSetLexer l k) s' evs' nm' fin
| xr_execute : forall R sid s evs nm cmd k s1 r s' evs' nm' fin,
    x_executes s cmd s1 r ->
    x_runs R sid s1 evs nm (k r) s' evs' nm' fin ->
    x_runs R sid s evs nm (DoExecute cmd k) s' evs' nm' fin

with attempts : state -> input -> nat * F -> state -> list event -> list (bytes * value) ->
    option bytes + exn -> Prop :=
| at_unconverted : forall s inp f,
    f_params (code (snd f)) <> [] ->
    attempts s inp f s [] (i_named inp) (inr alloc)
| at_errors : forall s inp f es,
    conversion_errors (f_params (code (snd f))) (i_args inp) es -> es <> [] ->
    attempts s inp f s (map Reported es) (i_named inp) (inl None)
| at_some_errors : forall s inp f es e es',
    conversion_errors (f_params (code (snd f))) (i_args inp) (es ++ e :: es') ->
    attempts s inp f s (map Reported es) (i_named inp) (inr alloc)
| at_returns : forall s inp f vs s' evs nm v t,
    converts (f_params (code (snd f))) (i_args inp) vs ->
    x_runs _ (fst f) s [] (i_named inp) (f_body (code (snd f)) vs) s' evs nm (inl v) ->
    shows (f_result (code (snd f))) v t ->
    attempts s inp f s' evs nm (inl t)
| at_unprinted : forall s inp f vs s' evs nm v,
    converts (f_params (code (snd f))) (i_args inp) vs ->
    x_runs _ (fst f) s [] (i_named inp) (f_body (code (snd f)) vs) s' evs nm (inl v) ->
    f_result (code (snd f)) <> RVoid ->
    attempts s inp f s' evs nm (inr alloc)
| at_throws : forall s inp f vs s' evs nm x,
    converts (f_params (code (snd f))) (i_args inp) vs ->
    x_runs _ (fst f) s [] (i_named inp) (f_body (code (snd f)) vs) s' evs nm (inr x) ->
    attempts s inp f s' evs nm (inr x)

with x_answers : state -> input -> state -> result + exn -> Prop :=
| xa_fails : forall s inp, x_answers s inp s (inr alloc)
| xa_unnamed : forall s inp,
    i_name inp = [] ->
    x_answers s inp s (inl (failure inp [lit "No function name is specified"]))
| xa_unknown : forall s inp msg,
    i_name inp <> [] -> get sg s (i_name inp) = Done None ->
    unknown_message (i_name inp) msg ->
    x_answers s inp s (inl (failure inp [msg]))
| xa_arity : forall s inp cmd msg,
    i_name inp <> [] -> get sg s (i_name inp) = Done (Some cmd) ->
    none_accepts code (c_functors cmd) (length (i_args inp)) ->
    arity_message (i_name inp) (map (fun f => length (f_params (code (snd f)))) (c_functors cmd))
                  (length (i_args inp)) msg ->
    x_answers s inp s (inl (failure inp [msg]))
| xa_returns : forall s inp cmd f s' evs nm t,
    i_name inp <> [] -> get sg s (i_name inp) = Done (Some cmd) ->
    chosen code (c_functors cmd) (length (i_args inp)) f ->
    attempts s inp f s' evs nm (inl t) ->
    x_answers s inp s'
      (inl (Result (Input (i_name inp) (i_args inp) nm) (errors_of evs)
                   (match errors_of evs with [] => t | _ => None end) (output_of evs)))
| xa_caught : forall s inp cmd f s' evs nm x msg,
    i_name inp <> [] -> get sg s (i_name inp) = Done (Some cmd) ->
    chosen code (c_functors cmd) (length (i_args inp)) f ->
    attempts s inp f s' evs nm (inr x) ->
    catching = true -> exception_message x msg ->
    x_answers s inp s'
      (inl (Result (Input (i_name inp) (i_args inp) nm) (errors_of evs ++ [msg]) None
                   (output_of evs)))
| xa_lost : forall s inp cmd f s' evs nm x,
    i_name inp <> [] -> get sg s (i_name inp) = Done (Some cmd) ->
    chosen code (c_functors cmd) (length (i_args inp)) f ->
    attempts s inp f s' evs nm (inr x) ->
    catching = true ->
    x_answers s inp s' (inr alloc)
| xa_thrown : forall s inp cmd f s' evs nm x,
    i_name inp <> [] -> get sg s (i_name inp) = Done (Some cmd) ->
    chosen code (c_functors cmd) (length (i_args inp)) f ->
    attempts s inp f s' evs nm (inr x) ->
    catching = false ->
    x_answers s inp s' (inr x)

with x_executes : state -> bytes -> state -> result + exn -> Prop :=
| xe_fails : forall s cmd lex, s_lexer s = Some lex -> x_executes s cmd s (inr alloc)
| xe_syntax : forall s cmd lex e,
    s_lexer s = Some lex -> lex cmd = Done (Error e) ->
    x_executes s cmd s (inl (failure (Input [] [] []) [lit "Syntax error: " ++ e]))
| xe_parsed : forall s cmd lex inp s' r,
    s_lexer s = Some lex -> lex cmd = Done (Value inp) ->
    x_answers s inp s' r ->
    x_executes s cmd s' r.
End Spec.
