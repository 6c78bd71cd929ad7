(** Properties C26-C34: executing commands.

    The theorems hold for every application state type [W], every family of handlers
    [code : F -> functor W F] and both settings of the platform and of the option
    COIL_CONFIG_CATCH_EXCEPTIONS.  [exec_input code sg catching d s inp] is the model of
    Bindings::execute(ExecutionInput), [exec_text] that of Bindings::execute(StringView); [d]
    bounds the nesting of executions inside handlers and only serves as fuel. *)
From Coq Require Import Ascii String NArith ZArith Bool PeanoNat Lia List.
Import ListNotations.
From Verif Require Import Util Base StringConv StringConvSpec StringConvProofs
  SerializerSpec Serializer SerializerProofs Lexer UMap UMapSpec UMapProofs UMapIter
  Exec ExecSpec ExecProofs ExecMore ExecKinds.

(** An execution of a parsed command ends in state [s'] with result [r] (or an exception
    that reached the caller): every sufficiently large nesting bound gives that. *)
Definition gives {W F} (code : F -> functor W F) sg catching s inp s' r : Prop :=
  exists d0, forall d, d0 <= d -> exec_input code sg catching d s inp = Done (s', r).

(** ** A small application used in the examples

    Its state is a number. *)
Definition ex_platform := Platform true Long64.
Definition ex_naming := Naming false true.
Definition i32 : serializer := int_serializer ex_platform ex_naming CInt.
Definition str : serializer := string_serializer.

Inductive ex_fn :=
| XSum (* int (int, int): the sum *)
| XNeg (* int (int): the negation *)
| XHello (* void (Context, string): logs a greeting *)
| XFail (* int (Context): logs, then reports two errors *)
| XBoom (* void (Context): logs, changes the state, throws std::runtime_error *)
| XOdd (* void (): throws an int *)
| XEdit (* void (Context): overwrites its first named argument *)
| XGet | XSet (* a variable *)
| XRoot (* a read-only variable, written *)
| XNest (* int (): executes "sum 1 2" and returns 7 *)
| XGone. (* void (): removes itself, then uses its captures *)

Definition ex_code (f : ex_fn) : functor Z ex_fn :=
  match f with
  | XSum => Functor false [i32; i32] (RValue i32) (fun vs => Ret (fst vs + fst (snd vs) : rcarrier (RValue i32))%Z)
  | XNeg => Functor false [i32] (RValue i32) (fun vs => Ret (- fst vs : rcarrier (RValue i32))%Z)
  | XHello => Functor true [str] RVoid
      (fun vs => Log (lit "hello ") (LogLine (fst vs) (Ret (tt : rcarrier RVoid))))
  | XFail => Functor true [] (RValue i32)
      (fun _ => Log (lit "x") (ReportError (lit "e1") (LogLine (lit "y") (ReportError (lit "e2")
                  (Ret (5%Z : rcarrier (RValue i32)))))))
  | XBoom => Functor true [] RVoid
      (fun _ => Log (lit "x") (PutState 9%Z (Throw (StdException (lit "bad")))))
  | XOdd => Functor false [] RVoid (fun _ => Throw OtherException)
  | XEdit => Functor true [] RVoid
      (fun _ => PutNamed 0 (lit "other", [lit "v"]) (Ret (tt : rcarrier RVoid)))
  | XGet => variable_get i32 (fun w => w)
  | XSet => variable_set i32 (fun w => w) (fun x _ => x)
  | XRoot => Functor true [i32] (RValue i32)
      (fun _ => ReportError (lit "This variable is read-only")
                  (GetState (fun w => Ret (w : rcarrier (RValue i32)))))
  | XNest => Functor false [] (RValue i32)
      (fun _ => DoExecute (lit "sum 1 2") (fun _ => Ret (7%Z : rcarrier (RValue i32))))
  | XGone => Functor false [] RVoid
      (fun _ => DoRemove (lit "gone") (Touch (Ret (tt : rcarrier RVoid))))
  end.

(** The registry after the given additions. *)
Definition ex_table : list (bytes * list ex_fn) :=
  [(lit "sum", [XNeg; XSum; XNeg]); (lit "hello", [XHello]); (lit "fail", [XFail]);
   (lit "boom", [XBoom]); (lit "odd", [XOdd]); (lit "edit", [XEdit]); (lit "var", [XGet; XSet]);
   (lit "root", [XGet; XRoot]); (lit "nest", [XNest]); (lit "gone", [XGone])].

Fixpoint register_all (sg : bool) (s : state Z ex_fn) (t : list (bytes * list ex_fn))
  : outcome (state Z ex_fn) :=
  match t with
  | [] => Done s
  | (n, fs) :: t => s' <- add sg s n fs ;; register_all sg s' t
  end.

Definition ex_state : state Z ex_fn :=
  match register_all true (fresh_bindings true 40%Z) ex_table with
  | Done s => s
  | Fault _ => fresh_bindings true 0%Z
  end.

(** Application state and result of an execution. *)
Definition shown {W F} (o : outcome (state W F * (result + exn))) : option (W * (result + exn)) :=
  match o with Done (s, r) => Some (s_world s, r) | Fault _ => None end.
Definition ex_run (cmd : string) := shown (exec_text ex_code true true 5 ex_state (lit cmd)).

Example ex_state_ok :
  match register_all true (fresh_bindings true 40%Z) ex_table with Done _ => True | _ => False end.
Proof. vm_compute. exact I. Qed.

Definition ex_input (name : string) (args : list string) : input :=
  Input (lit name) (map (fun a => [lit a]) args) [].

(** * C26  At most one handler runs per execution, the first with the right arity *)

(** Handlers that record their calls: after an execution the log has grown by exactly one
    entry, the first overload with the right number of parameters and the converted
    arguments, if there is such an overload and all arguments convert; otherwise it has not
    changed.  (Handlers that execute further commands make further calls, see C50.) *)
Theorem C26_one_handler_first_match : forall W F (code : F -> functor W F) sg catching d
  (s s' : state (W * list (call code)) F) inp r,
  (forall f vs, only no_nesting (f_body (code f) vs)) ->
  exec_input (traced code) sg catching d s inp = Done (s', r) ->
  (forall cmd f vs, i_name inp <> [] -> get sg s (i_name inp) = Done (Some cmd) ->
     chosen code (c_functors cmd) (length (i_args inp)) f ->
     converts (f_params (code (snd f))) (i_args inp) vs ->
     snd (s_world s') = snd (s_world s) ++ [existT _ (snd f) vs]) /\
  ((i_name inp = [] \/
    get sg s (i_name inp) = Done None \/
    (exists cmd, get sg s (i_name inp) = Done (Some cmd) /\
       none_accepts code (c_functors cmd) (length (i_args inp))) \/
    (exists cmd f, get sg s (i_name inp) = Done (Some cmd) /\
       chosen code (c_functors cmd) (length (i_args inp)) f /\
       forall vs, ~ converts (f_params (code (snd f))) (i_args inp) vs)) ->
   s' = s).
Proof.
  intros W F code sg catching d s s' inp r N E. split.
  - intros cmd f vs Ne G C V. unfold exec_input in E.
    assert (C' : chosen (traced code) (c_functors cmd) (length (i_args inp)) f) by exact C.
    rewrite (input_chosen _ _ _ _ _ _ _ _ Ne G C') in E.
    assert (V' : converts (f_params (traced code (snd f))) (i_args inp) vs) by exact V.
    rewrite (invoke_good _ _ _ _ _ _ _ _ _ V') in E.
    change (f_body (traced code (snd f)) vs) with
      (GetState (fun w => PutState (fst w, snd w ++ [existT _ (snd f) vs])
         (lift (f_body (code (snd f)) vs)))
       : prog (W * list (call code)) F (rcarrier (f_result (code (snd f))))) in E.
    simpl in E.
    match type of E with
    | context [run_prog sg ?n ?sid ?s0 ?c ?p] =>
        destruct (run_prog sg n sid s0 c p) as [[[s1 c1] fin]|] eqn:R
    end; simpl in E; [|discriminate].
    apply lift_log in R; [|apply N]. simpl in R.
    destruct fin as [v|x].
    + destruct (rtext _ v); simpl in E; [|discriminate]. injection E as <- _. exact R.
    + destruct catching; injection E as <- _; exact R.
  - intros H. destruct (i_name inp) as [|a b] eqn:En.
    { unfold exec_input in E. rewrite input_unnamed in E by exact En. now injection E as <- _. }
    assert (Ne : i_name inp <> []) by congruence. unfold exec_input in E. rewrite <- En in H.
    destruct H as [H|[H|[(cmd & G & H)|(cmd & f & G & C & H)]]].
    + congruence.
    + rewrite (input_unknown _ _ _ _ _ _ Ne H) in E. now injection E as <- _.
    + assert (H' : none_accepts (traced code) (c_functors cmd) (length (i_args inp))) by exact H.
      rewrite (input_arity _ _ _ _ _ _ _ Ne G H') in E. now injection E as <- _.
    + assert (L : length (i_args inp) = length (f_params (code (snd f)))).
      { destruct C as (b1 & a1 & _ & L & _). now symmetry. }
      assert (CE := from_all_errors (f_params (code (snd f))) (i_args inp) L).
      destruct (errs_of (f_params (code (snd f))) (from_all (f_params (code (snd f))) (i_args inp)))
        as [|e es] eqn:Ee.
      { destruct (from_all_values _ _ L Ee) as (vs & _ & V). now apply H in V. }
      assert (C' : chosen (traced code) (c_functors cmd) (length (i_args inp)) f) by exact C.
      assert (CE' : conversion_errors (f_params (traced code (snd f))) (i_args inp) (e :: es)) by exact CE.
      rewrite (input_conversion _ _ _ _ _ _ _ _ _ Ne G C' CE') in E by discriminate.
      now injection E as <- _.
Qed.

(** The cases above are all there are, and the chosen overload is unique. *)
Theorem C26_first_match_or_none : forall W F (code : F -> functor W F) fs n,
  (exists f, chosen code fs n f) \/ none_accepts code fs n.
Proof. intros. apply chosen_or_none. Qed.

Theorem C26_first_match_unique : forall W F (code : F -> functor W F) fs n f g,
  chosen code fs n f -> chosen code fs n g -> f = g.
Proof. intros W F code fs n f g. apply chosen_unique. Qed.

(** In general: an execution that ends either changed nothing and reports errors, or is
    exactly one run of the chosen overload's body on the converted arguments, whose events
    and end determine the result. *)
Theorem C26_execution_is_one_run : forall W F (code : F -> functor W F) sg catching d s inp s' r,
  exec_input code sg catching d s inp = Done (s', r) ->
  (s' = s /\ exists e es, r = inl (failure inp (e :: es))) \/
  (exists cmd f vs evs nm fin,
     get sg s (i_name inp) = Done (Some cmd) /\
     chosen code (c_functors cmd) (length (i_args inp)) f /\
     converts (f_params (code (snd f))) (i_args inp) vs /\
     runs code sg catching _ (fst f) s [] (i_named inp) (f_body (code (snd f)) vs) s' evs nm fin /\
     match fin with
     | inl v => exists t, shows (f_result (code (snd f))) v t /\
         r = inl (Result (Input (i_name inp) (i_args inp) nm) (errors_of evs)
                         (match errors_of evs with [] => t | _ => None end) (output_of evs))
     | inr x =>
         (catching = true /\ exists msg, exception_message x msg /\
            r = inl (Result (Input (i_name inp) (i_args inp) nm) (errors_of evs ++ [msg]) None
                            (output_of evs))) \/
         (catching = false /\ r = inr x)
     end).
Proof.
  intros W F code sg catching d s inp s' r H. apply exec_input_sound in H.
  destruct H; try (left; split; [reflexivity|]; eauto; fail).
  - left. split; [reflexivity|]. destruct es; [easy|eauto].
  - right. exists cmd, f, vs, evs, nm, (inl v). eauto 10.
  - right. exists cmd, f, vs, evs, nm, (inr x). eauto 12.
  - right. exists cmd, f, vs, evs, nm, (inr x). eauto 12.
Qed.

(** Three overloads, of arities 1, 2, 1: "sum 1 2" runs the second, "sum 1" the first. *)
Example C26_ex_two : shown (exec_text ex_code true true 0 ex_state (lit "sum 1 2")) =
  Some (40%Z, inl (Result (ex_input "sum" ["1"; "2"]%string) [] (Some (lit "3")) [])).
Proof. vm_compute. reflexivity. Qed.
Example C26_ex_one : shown (exec_text ex_code true true 0 ex_state (lit "sum 1")) =
  Some (40%Z, inl (Result (ex_input "sum" ["1"]%string) [] (Some (lit "-1")) [])).
Proof. vm_compute. reflexivity. Qed.

(** The traced application. *)
Definition pure_code (f : ex_fn) : functor Z ex_fn :=
  match f with XNest | XGone => ex_code XOdd | _ => ex_code f end.
Example C26_ex_hyp : forall f vs, only no_nesting (f_body (pure_code f) vs).
Proof. intros [] vs; cbn; repeat split. Qed.

Definition traced_state : state (Z * list (call pure_code)) ex_fn :=
  match add true (fresh_bindings true (40%Z, [])) (lit "sum") [XNeg; XSum; XNeg] with
  | Done s => s
  | Fault _ => fresh_bindings true (0%Z, [])
  end.
Definition show_call (c : call pure_code) : ex_fn * list Z :=
  match c with
  | existT _ XSum vs => (XSum, [fst vs; fst (snd vs)])
  | existT _ XNeg vs => (XNeg, [fst vs])
  | existT _ f _ => (f, [])
  end.
Definition trace_of (inp : input) : option (list (ex_fn * list Z)) :=
  match exec_input (traced pure_code) true true 0 traced_state inp with
  | Done (s', _) => Some (map show_call (snd (s_world s')))
  | Fault _ => None
  end.
Example C26_ex_trace : trace_of (ex_input "sum" ["4"; "5"]%string) = Some [(XSum, [4; 5]%Z)].
Proof. vm_compute. reflexivity. Qed.
Example C26_ex_no_trace : trace_of (ex_input "sum" ["4"; "x"]%string) = Some [].
Proof. vm_compute. reflexivity. Qed.

(** * C27  A handler never runs with a badly converted argument *)

Theorem C27_bad_arguments_never_reach_handler :
  forall W F (code : F -> functor W F) sg catching d s inp cmd f es,
  i_name inp <> [] -> get sg s (i_name inp) = Done (Some cmd) ->
  chosen code (c_functors cmd) (length (i_args inp)) f ->
  conversion_errors (f_params (code (snd f))) (i_args inp) es -> es <> [] ->
  exec_input code sg catching d s inp = Done (s, inl (failure inp es)).
Proof. intros. eapply input_conversion; eauto. Qed.

(** The list of conversion errors exists for every argument list of the right length, is
    unique, and is empty exactly if all arguments convert. *)
Theorem C27_conversion_errors_total : forall ps args,
  length args = length ps -> exists es, conversion_errors ps args es.
Proof. intros ps args H. eexists. now apply from_all_errors. Qed.

Theorem C27_conversion_errors_unique : forall ps args es es',
  conversion_errors ps args es -> conversion_errors ps args es' -> es = es'.
Proof.
  intros ps args es es' A B. apply conversion_errors_det in A. apply conversion_errors_det in B.
  congruence.
Qed.

Theorem C27_no_errors_iff_all_convert : forall ps args,
  conversion_errors ps args [] <-> exists vs, converts ps args vs.
Proof.
  intros ps args. split.
  - intros H. assert (L := conversion_errors_length _ _ _ H).
    apply conversion_errors_det in H.
    destruct (from_all_values ps args L (eq_sym H)) as (vs & _ & V). eauto.
  - intros (vs & V). assert (L := converts_length _ _ _ V).
    apply converts_from_all in V. destruct V as [V _].
    rewrite <- V. now apply from_all_errors.
Qed.

Example C27_ex : shown (exec_text ex_code true true 0 ex_state (lit "sum x 9999999999")) =
  Some (40%Z, inl (failure (ex_input "sum" ["x"; "9999999999"]%string)
    [lit "Unable to convert 'x' to type 'int'"; lit "Unable to convert '9999999999' to type 'int'"])).
Proof. vm_compute. reflexivity. Qed.

(** * C28  A handler receives the converted arguments in order *)

(** If all arguments convert, then whatever the chosen handler's body does when it is run
    once on the converted values is what the execution does. *)
Theorem C28_converted_arguments_in_order :
  forall W F (code : F -> functor W F) sg catching s inp cmd f vs s' evs nm v t,
  i_name inp <> [] -> get sg s (i_name inp) = Done (Some cmd) ->
  chosen code (c_functors cmd) (length (i_args inp)) f ->
  converts (f_params (code (snd f))) (i_args inp) vs ->
  runs code sg catching _ (fst f) s [] (i_named inp) (f_body (code (snd f)) vs) s' evs nm (inl v) ->
  shows (f_result (code (snd f))) v t ->
  gives code sg catching s inp s'
    (inl (Result (Input (i_name inp) (i_args inp) nm) (errors_of evs)
                 (match errors_of evs with [] => t | _ => None end) (output_of evs))).
Proof. intros. apply answers_gives. eapply answers_return; eauto. Qed.

(** The converted values are determined by the arguments. *)
Theorem C28_converted_values_unique : forall ps args vs vs',
  converts ps args vs -> converts ps args vs' -> vs = vs'.
Proof.
  intros ps args vs vs' A B. apply converts_from_all in A. apply converts_from_all in B.
  destruct A as [_ A], B as [_ B]. congruence.
Qed.

(** The i-th value is the conversion of the i-th argument to the i-th type. *)
Theorem C28_values_are_conversions : forall ps args,
  (exists vs, converts ps args vs) <->
  Forall2 (fun T v => exists x, from_value T v = Value x) ps args.
Proof.
  intros ps args. split.
  - intros (vs & H). induction H; constructor; eauto.
  - intros H. induction H as [|T v ps args (x & E) _ (vs & IH)].
    + exists (tt : args_of []). constructor.
    + exists ((x, vs) : args_of (T :: ps)). now constructor.
Qed.

(** For handlers without nested executions the nesting bound is irrelevant. *)
Theorem C28_converted_arguments_every_bound :
  forall W F (code : F -> functor W F) sg catching s inp cmd f vs s' evs nm v t,
  (forall vs, only no_nesting (f_body (code (snd f)) vs)) ->
  i_name inp <> [] -> get sg s (i_name inp) = Done (Some cmd) ->
  chosen code (c_functors cmd) (length (i_args inp)) f ->
  converts (f_params (code (snd f))) (i_args inp) vs ->
  runs code sg catching _ (fst f) s [] (i_named inp) (f_body (code (snd f)) vs) s' evs nm (inl v) ->
  shows (f_result (code (snd f))) v t ->
  forall d, exec_input code sg catching d s inp = Done (s',
    (inl (Result (Input (i_name inp) (i_args inp) nm) (errors_of evs)
                 (match errors_of evs with [] => t | _ => None end) (output_of evs)))).
Proof.
  intros W F code sg catching s inp cmd f vs s' evs nm v t N Ne G C V R S d.
  destruct (C28_converted_arguments_in_order _ _ _ _ _ _ _ _ _ _ _ _ _ _ _ Ne G C V R S) as (d0 & H).
  specialize (H (d0 + d)). rewrite <- H by lia. unfold exec_input.
  rewrite !(input_chosen _ _ _ _ _ _ _ _ Ne G C), !(invoke_good _ _ _ _ _ _ _ _ _ V).
  rewrite (no_nesting_run sg (nested_exec code sg catching d) (nested_exec code sg catching (d0 + d)))
    by apply N.
  reflexivity.
Qed.

Example C28_ex : converts [i32; str] [[lit " 12"]; [lit "a b"]] (12%Z, (lit "a b", tt)).
Proof. repeat constructor. Qed.
Example C28_ex_run : shown (exec_text ex_code true true 0 ex_state (lit "sum 12 -5")) =
  Some (40%Z, inl (Result (ex_input "sum" ["12"; "-5"]%string) [] (Some (lit "7")) [])).
Proof. vm_compute. reflexivity. Qed.

(** * C29  A return value is present exactly on success of a non-void handler *)

Theorem C29_return_value_iff :
  forall W F (code : F -> functor W F) sg catching d s inp s' r t,
  exec_input code sg catching d s inp = Done (s', inl r) ->
  (r_return r = Some t <->
   r_errors r = [] /\
   exists cmd f vs evs nm v,
     get sg s (i_name inp) = Done (Some cmd) /\
     chosen code (c_functors cmd) (length (i_args inp)) f /\
     converts (f_params (code (snd f))) (i_args inp) vs /\
     runs code sg catching _ (fst f) s [] (i_named inp) (f_body (code (snd f)) vs) s' evs nm (inl v) /\
     shows (f_result (code (snd f))) v (Some t)).
Proof.
  intros W F code sg catching d s inp s' r t H. assert (A := exec_input_sound _ _ _ _ _ _ _ _ H).
  split.
  - intros E. remember (inl r) as r' eqn:Er.
    destruct A; try discriminate; injection Er as <-; simpl in E; try discriminate.
    destruct (errors_of evs) eqn:Ee; [|discriminate]. simpl. subst t0.
    split; [reflexivity|]. exists cmd, f, vs, evs, nm, v. auto 10.
  - intros (E & cmd & f & vs & evs & nm & v & G & C & V & R & S).
    destruct (i_name inp) as [|a b] eqn:En.
    + apply exec_input_sound in H.
      unfold exec_input in *. exfalso.
      assert (Q := answers_det code sg catching _ _ _ _ _ _ H (answers_unnamed _ _ _ _ _ En)).
      destruct Q as [_ Q]. injection Q as ->. discriminate.
    + rewrite <- En in G. assert (Ne : i_name inp <> []) by congruence.
      assert (Q := answers_return code sg catching _ _ _ _ _ _ _ _ _ _ Ne G C V R S).
      destruct (answers_det _ _ _ _ _ _ _ _ _ A Q) as [_ Q']. injection Q' as ->.
      simpl in E |- *. now rewrite E.
Qed.

(** Errors and a return value exclude each other. *)
Theorem C29_errors_exclude_return_value :
  forall W F (code : F -> functor W F) sg catching d s inp s' r,
  exec_input code sg catching d s inp = Done (s', inl r) ->
  r_errors r = [] \/ r_return r = None.
Proof.
  intros W F code sg catching d s inp s' r H.
  destruct (r_return r) as [t|] eqn:E; [left|now right].
  apply (C29_return_value_iff _ _ _ _ _ _ _ _ _ _ t H) in E. apply E.
Qed.

(** The same for command texts. *)
Theorem C29_text_errors_exclude_return_value :
  forall W F (code : F -> functor W F) sg catching d s cmd s' r,
  exec_text code sg catching d s cmd = Done (s', inl r) ->
  r_errors r = [] \/ r_return r = None.
Proof.
  intros W F code sg catching d s cmd s' r. unfold exec_text, execute_text.
  destruct (s_lexer s) as [lex|]; [|discriminate].
  destruct (lex cmd) as [[inp|e]|]; simpl; [| |discriminate].
  - apply C29_errors_exclude_return_value.
  - intros [= _ <-]. now right.
Qed.

(** A value of a void handler shows as nothing, any other value shows as a text. *)
Theorem C29_void_iff_no_text : forall (r : rtype) (x : rcarrier r) t,
  shows r x t -> (t = None <-> r = RVoid).
Proof. intros r x t H. destruct H; split; intros E; try discriminate; reflexivity. Qed.

Example C29_ex_void : shown (exec_text ex_code true true 0 ex_state (lit "hello 'a b'")) =
  Some (40%Z, inl (Result (ex_input "hello" ["a b"]%string) [] None (lit "hello a b" ++ [newline]))).
Proof. vm_compute. reflexivity. Qed.
Example C29_ex_errors : shown (exec_text ex_code true true 0 ex_state (lit "fail")) =
  Some (40%Z, inl (Result (ex_input "fail" []) [lit "e1"; lit "e2"] None (lit "xy" ++ [newline]))).
Proof. vm_compute. reflexivity. Qed.

(** * C30  Failures before the call are reported once and have no effect *)

Theorem C30_syntax_error : forall W F (code : F -> functor W F) sg catching d s cmd lex e,
  s_lexer s = Some lex -> lex cmd = Done (Error e) ->
  exec_text code sg catching d s cmd =
  Done (s, inl (failure (Input [] [] []) [lit "Syntax error: " ++ e])).
Proof. intros W F code sg catching d s cmd lex e L E. unfold exec_text, execute_text. now rewrite L, E. Qed.

Theorem C30_no_name : forall W F (code : F -> functor W F) sg catching d s inp,
  i_name inp = [] ->
  exec_input code sg catching d s inp =
  Done (s, inl (failure inp [lit "No function name is specified"])).
Proof. intros. now apply input_unnamed. Qed.

Theorem C30_unknown_name : forall W F (code : F -> functor W F) sg catching d s inp,
  i_name inp <> [] -> get sg s (i_name inp) = Done None ->
  exists msg, unknown_message (i_name inp) msg /\
    exec_input code sg catching d s inp = Done (s, inl (failure inp [msg])).
Proof.
  intros W F code sg catching d s inp Ne G. eexists. split; [|now apply input_unknown].
  exists (c_str (i_name inp)). split; [apply before_nul_c_str|reflexivity].
Qed.

Theorem C30_wrong_arity : forall W F (code : F -> functor W F) sg catching d s inp cmd,
  i_name inp <> [] -> get sg s (i_name inp) = Done (Some cmd) ->
  none_accepts code (c_functors cmd) (length (i_args inp)) ->
  exists msg, exec_input code sg catching d s inp = Done (s, inl (failure inp [msg])).
Proof. intros. eexists. eapply input_arity; eauto. Qed.

(** Conversely an error-free result means that none of this happened: a handler ran. *)
Theorem C30_no_errors_means_handler_ran :
  forall W F (code : F -> functor W F) sg catching d s inp s' r,
  exec_input code sg catching d s inp = Done (s', inl r) -> r_errors r = [] ->
  i_name inp <> [] /\ exists cmd f vs,
    get sg s (i_name inp) = Done (Some cmd) /\
    chosen code (c_functors cmd) (length (i_args inp)) f /\
    converts (f_params (code (snd f))) (i_args inp) vs.
Proof.
  intros W F code sg catching d s inp s' r H E. apply exec_input_sound in H.
  remember (inl r) as r' eqn:Er.
  destruct H; try discriminate; injection Er as <-; simpl in E; try discriminate; try easy.
  - eauto 10.
  - eauto 10.
Qed.

Example C30_ex_syntax : shown (exec_text ex_code true true 0 ex_state (lit "sum 'a")) =
  Some (40%Z, inl (failure (Input [] [] []) [lit "Syntax error: Token ''' doesn't have a corresponding opening/closing quote"])).
Proof. vm_compute. reflexivity. Qed.
Example C30_ex_empty : shown (exec_text ex_code true true 0 ex_state (lit "  ")) =
  Some (40%Z, inl (failure (Input [] [] []) [lit "No function name is specified"])).
Proof. vm_compute. reflexivity. Qed.
Example C30_ex_unknown : shown (exec_text ex_code true true 0 ex_state (lit "su 1")) =
  Some (40%Z, inl (failure (ex_input "su" ["1"]%string) [lit "No function 'su' is registered"])).
Proof. vm_compute. reflexivity. Qed.

(** * C31  The wrong-argument-count message lists all accepted counts *)

Theorem C31_wrong_arity_message : forall W F (code : F -> functor W F) sg catching d s inp cmd,
  i_name inp <> [] -> get sg s (i_name inp) = Done (Some cmd) ->
  none_accepts code (c_functors cmd) (length (i_args inp)) ->
  exists msg,
    arity_message (i_name inp) (map (fun f => length (f_params (code (snd f)))) (c_functors cmd))
                  (length (i_args inp)) msg /\
    exec_input code sg catching d s inp = Done (s, inl (failure inp [msg])).
Proof.
  intros W F code sg catching d s inp cmd Ne G N. eexists.
  split; [apply wrong_arity|eapply input_arity; eauto].
Qed.

(** The message is determined by the name and the numbers. *)
Theorem C31_enumeration_unique : forall l t t', enumeration l t -> enumeration l t' -> t = t'.
Proof. intros l t t' A B. apply enumeration_det in A. apply enumeration_det in B. congruence. Qed.

Theorem C31_enumeration_exists : forall l, exists t, enumeration l t.
Proof. intros l. eexists. apply enum_text_enumeration. Qed.

Example C31_ex : shown (exec_text ex_code true true 0 ex_state (lit "sum")) =
  Some (40%Z, inl (failure (ex_input "sum" [])
    [lit "Wrong number of arguments to 'sum': expected 1, 2 or 1, got 0"])).
Proof. vm_compute. reflexivity. Qed.

(** * C32  The result echoes the parsed input *)

(** The full statement.  It is false: the named arguments a Context offers are not const, a
    handler can overwrite them, and the result then shows the changed ones. *)
Definition C32_full_statement : Prop :=
  forall W F (code : F -> functor W F) sg catching d s inp s' r,
  exec_input code sg catching d s inp = Done (s', inl r) -> r_input r = inp.

Theorem C32_echo_refuted : ~ C32_full_statement.
Proof.
  intros H.
  specialize (H Z ex_fn ex_code true true 0 ex_state (Input (lit "edit") [] [(lit "k", [lit "1"])])).
  destruct (exec_input ex_code true true 0 ex_state (Input (lit "edit") [] [(lit "k", [lit "1"])]))
    as [[s' [r|x]]|f] eqn:E.
  - assert (Q : shown (exec_input ex_code true true 0 ex_state
                  (Input (lit "edit") [] [(lit "k", [lit "1"])])) =
      Some (40%Z, inl (Result (Input (lit "edit") [] [(lit "other", [lit "v"])]) [] None []))).
    { vm_compute. reflexivity. }
    rewrite E in Q. injection Q as _ ->. specialize (H _ _ eq_refl). clear E.
    vm_compute in H. discriminate H.
  - assert (Q : shown (exec_input ex_code true true 0 ex_state
                  (Input (lit "edit") [] [(lit "k", [lit "1"])])) <> Some (s_world s', inr x)).
    { vm_compute. discriminate. }
    rewrite E in Q. now apply Q.
  - assert (Q : shown (exec_input ex_code true true 0 ex_state
                  (Input (lit "edit") [] [(lit "k", [lit "1"])])) <> None).
    { vm_compute. discriminate. }
    rewrite E in Q. now apply Q.
Qed.

(** What holds: name and positional arguments are always echoed... *)
Theorem C32_echo_partial : forall W F (code : F -> functor W F) sg catching d s inp s' r,
  exec_input code sg catching d s inp = Done (s', inl r) ->
  i_name (r_input r) = i_name inp /\ i_args (r_input r) = i_args inp.
Proof.
  intros W F code sg catching d s inp s' r H. apply exec_input_sound in H.
  remember (inl r) as r' eqn:Er. destruct H; try discriminate; injection Er as <-; auto.
Qed.

(** ... and so are the named arguments unless the handler that runs overwrites them.
    Missing for the full statement: such handlers, for which it is false. *)
Theorem C32_echo_named_partial : forall W F (code : F -> functor W F) sg catching d s inp s' r,
  (forall f vs, only keeps_named (f_body (code f) vs)) ->
  exec_input code sg catching d s inp = Done (s', inl r) -> r_input r = inp.
Proof.
  intros W F code sg catching d s inp s' r K H. apply exec_input_sound in H.
  assert (I : forall nm, nm = i_named inp -> Input (i_name inp) (i_args inp) nm = inp).
  { intros nm ->. now destruct inp. }
  remember (inl r) as r' eqn:Er. destruct H; try discriminate; injection Er as <-; auto; simpl;
    apply I; eapply runs_keeps_named; eauto.
Qed.

(** A text is echoed as the lexer parsed it. *)
Theorem C32_text_echo_partial : forall W F (code : F -> functor W F) sg catching d s cmd s' r lex inp,
  (forall f vs, only keeps_named (f_body (code f) vs)) ->
  s_lexer s = Some lex -> lex cmd = Done (Value inp) ->
  exec_text code sg catching d s cmd = Done (s', inl r) -> r_input r = inp.
Proof.
  intros W F code sg catching d s cmd s' r lex inp K L E. unfold exec_text, execute_text.
  rewrite L, E. simpl. now apply C32_echo_named_partial.
Qed.

Example C32_ex : forall f vs, f <> XEdit -> only keeps_named (f_body (ex_code f) vs).
Proof. intros [] vs N; cbn; repeat split; easy. Qed.
Example C32_ex_named : shown (exec_text ex_code true true 0 ex_state (lit "hello x k=(1 2)")) =
  Some (40%Z, inl (Result (Input (lit "hello") [[lit "x"]] [(lit "k", [lit "1"; lit "2"])]) [] None
                          (lit "hello x" ++ [newline]))).
Proof. vm_compute. reflexivity. Qed.

(** * C33  Output and errors keep the order in which the handler produced them *)

(** The events are what the body produces, in order, starting from none: see [runs],
    [output_of] and [errors_of]. *)
Theorem C33_output_and_errors_in_order :
  forall W F (code : F -> functor W F) sg catching s inp cmd f vs s' evs nm v,
  i_name inp <> [] -> get sg s (i_name inp) = Done (Some cmd) ->
  chosen code (c_functors cmd) (length (i_args inp)) f ->
  converts (f_params (code (snd f))) (i_args inp) vs ->
  runs code sg catching _ (fst f) s [] (i_named inp) (f_body (code (snd f)) vs) s' evs nm (inl v) ->
  forall d s1 r, exec_input code sg catching d s inp = Done (s1, r) ->
  exists r', r = inl r' /\ r_output r' = output_of evs /\ r_errors r' = errors_of evs.
Proof.
  intros W F code sg catching s inp cmd f vs s' evs nm v Ne G C V R d s1 r H.
  assert (A := exec_input_sound _ _ _ _ _ _ _ _ H).
  unfold exec_input in H. rewrite (input_chosen _ _ _ _ _ _ _ _ Ne G C) in H.
  rewrite (invoke_good _ _ _ _ _ _ _ _ _ V) in H.
  destruct (run_complete code sg catching _ _ _ _ _ _ _ _ _ _ R) as (d0 & R0).
  specialize (R0 (i_name inp) (i_args inp)).
  destruct (run_prog sg (nested_exec code sg catching d) (fst f) s
              (ctx_of (i_name inp) (i_args inp) [] (i_named inp)) (f_body (code (snd f)) vs))
    as [[[s2 c2] fin]|] eqn:R1; simpl in H; [|discriminate].
  apply (run_mono _ _ _ _ (d0 + d)) in R0; [|lia].
  apply (run_mono _ _ _ _ (d0 + d)) in R1; [|lia].
  rewrite R0 in R1. injection R1 as -> <- <-.
  destruct (rtext (f_result (code (snd f))) v) as [t|] eqn:T; simpl in H; [|discriminate].
  injection H as _ <-. eexists. split; [reflexivity|].
  destruct (cc_hasErrors _); auto.
Qed.

(** Every program's events only ever grow; nothing logged is lost or reordered. *)
Theorem C33_events_only_appended : forall W F (code : F -> functor W F) sg catching R sid s evs nm
  (p : prog W F R) s' evs' nm' fin,
  runs code sg catching R sid s evs nm p s' evs' nm' fin ->
  exists new, output_of evs' = output_of evs ++ output_of new /\
    errors_of evs' = errors_of evs ++ errors_of new.
Proof.
  intros W F code sg catching R sid s evs nm p s' evs' nm' fin H. apply runs_events in H.
  destruct H as (new & ->). exists new. split; [apply output_app|apply errors_app].
Qed.

(** A handler without a Context parameter produces neither. *)
Theorem C33_no_context_no_output :
  forall W F (code : F -> functor W F) sg catching d s inp s' r cmd f vs,
  get sg s (i_name inp) = Done (Some cmd) ->
  chosen code (c_functors cmd) (length (i_args inp)) f ->
  well_typed (code (snd f)) -> f_context (code (snd f)) = false ->
  converts (f_params (code (snd f))) (i_args inp) vs ->
  exec_input code sg catching d s inp = Done (s', inl r) ->
  i_name inp <> [] ->
  r_output r = [] /\ (r_errors r = [] \/ exists x msg, exception_message x msg /\ r_errors r = [msg]).
Proof.
  intros W F code sg catching d s inp s' r cmd f vs G C T X V H Ne. apply exec_input_sound in H.
  assert (K : forall vs' R' s1 evs nm fin, R' = f_body (code (snd f)) vs' ->
     runs code sg catching _ (fst f) s [] (i_named inp) R' s1 evs nm fin -> evs = []).
  { intros vs' R' s1 evs nm fin -> R. eapply runs_no_context in R; [apply R|]. now apply T. }
  remember (inl r) as r' eqn:Er.
  destruct H as [? ? E|? ? ? ? E|? ? c ? ? E N|? ? c g ? ? E C' CE NE
                |? ? c g vs' ? evs nm ? t ? E C' V' R|? ? c g vs' ? evs nm x msg ? E C' V' R
                |]; try discriminate; injection Er as <-; simpl; try congruence.
  - rewrite G in E. injection E as <-. exfalso.
    destruct C as (b & a & F0 & L & _). apply (N f); [rewrite F0; apply in_or_app; right; now left|exact L].
  - rewrite G in E. injection E as <-. rewrite (chosen_unique _ _ _ _ _ C' C) in CE.
    apply conversion_errors_det in CE. apply converts_from_all in V. destruct V as [V _]. congruence.
  - rewrite G in E. injection E as <-. pose proof (chosen_unique _ _ _ _ _ C' C) as ->.
    rewrite (K _ _ _ _ _ _ eq_refl R). auto.
  - rewrite G in E. injection E as <-. pose proof (chosen_unique _ _ _ _ _ C' C) as ->.
    rewrite (K _ _ _ _ _ _ eq_refl R). simpl. eauto 7.
Qed.

Example C33_ex : forall s, exists evs,
  runs ex_code true true _ 0 s [] [] (f_body (ex_code XFail) tt) s evs [] (inl 5%Z) /\
  evs = [Logged (lit "x"); Reported (lit "e1"); LoggedLine (lit "y"); Reported (lit "e2")].
Proof. intros s. eexists. split; [|reflexivity]. cbn. repeat econstructor. Qed.
Example C33_ex_typed : forall f, well_typed (ex_code f).
Proof. intros [] H vs; cbn in *; try discriminate; repeat split. Qed.

(** * C34  Exceptions are contained when the option is on, and propagate when it is off *)

Theorem C34_exception_caught :
  forall W F (code : F -> functor W F) sg s inp cmd f vs s' evs nm x,
  i_name inp <> [] -> get sg s (i_name inp) = Done (Some cmd) ->
  chosen code (c_functors cmd) (length (i_args inp)) f ->
  converts (f_params (code (snd f))) (i_args inp) vs ->
  runs code sg true _ (fst f) s [] (i_named inp) (f_body (code (snd f)) vs) s' evs nm (inr x) ->
  exists msg, exception_message x msg /\
  gives code sg true s inp s'
    (inl (Result (Input (i_name inp) (i_args inp) nm) (errors_of evs ++ [msg]) None (output_of evs))).
Proof.
  intros W F code sg s inp cmd f vs s' evs nm x Ne G C V R.
  exists (exn_text x). split; [apply exn_text_spec|]. apply answers_gives.
  eapply answers_caught; eauto. apply exn_text_spec.
Qed.

Theorem C34_exception_propagates :
  forall W F (code : F -> functor W F) sg s inp cmd f vs s' evs nm x,
  i_name inp <> [] -> get sg s (i_name inp) = Done (Some cmd) ->
  chosen code (c_functors cmd) (length (i_args inp)) f ->
  converts (f_params (code (snd f))) (i_args inp) vs ->
  runs code sg false _ (fst f) s [] (i_named inp) (f_body (code (snd f)) vs) s' evs nm (inr x) ->
  gives code sg false s inp s' (inr x).
Proof. intros. apply answers_gives. eapply answers_thrown; eauto. Qed.

(** With the option on no exception ever reaches the caller; with it off, one reaches the
    caller only if the handler threw it. *)
Theorem C34_never_propagates_when_caught : forall W F (code : F -> functor W F) sg d s inp s' x,
  exec_input code sg true d s inp <> Done (s', inr x).
Proof.
  intros W F code sg d s inp s' x H. apply exec_input_sound in H.
  remember (inr x) as r eqn:Er. destruct H; discriminate.
Qed.

Theorem C34_text_never_propagates_when_caught : forall W F (code : F -> functor W F) sg d s cmd s' x,
  exec_text code sg true d s cmd <> Done (s', inr x).
Proof.
  intros W F code sg d s cmd s' x. unfold exec_text, execute_text.
  destruct (s_lexer s) as [lex|]; [|discriminate].
  destruct (lex cmd) as [[inp|e]|]; simpl; try discriminate.
  apply C34_never_propagates_when_caught.
Qed.

Theorem C34_propagates_only_thrown : forall W F (code : F -> functor W F) sg catching d s inp s' x,
  exec_input code sg catching d s inp = Done (s', inr x) ->
  exists cmd f vs evs nm,
    get sg s (i_name inp) = Done (Some cmd) /\
    chosen code (c_functors cmd) (length (i_args inp)) f /\
    converts (f_params (code (snd f))) (i_args inp) vs /\
    runs code sg catching _ (fst f) s [] (i_named inp) (f_body (code (snd f)) vs) s' evs nm (inr x).
Proof.
  intros W F code sg catching d s inp s' x H. apply exec_input_sound in H.
  remember (inr x) as r eqn:Er. destruct H; try discriminate. injection Er as <-. eauto 12.
Qed.

Example C34_ex_caught : ex_run "boom" =
  Some (9%Z, inl (Result (ex_input "boom" []) [lit "Exception caught during execution: bad"] None (lit "x"))).
Proof. vm_compute. reflexivity. Qed.
Example C34_ex_other : ex_run "odd" =
  Some (40%Z, inl (Result (ex_input "odd" []) [lit "Exception caught during execution"] None [])).
Proof. vm_compute. reflexivity. Qed.
Example C34_ex_propagates :
  shown (exec_text ex_code true false 0 ex_state (lit "boom")) = Some (9%Z, inr (StdException (lit "bad"))).
Proof. vm_compute. reflexivity. Qed.

(** * Assumptions *)
Print Assumptions C26_one_handler_first_match.
Print Assumptions C26_first_match_or_none.
Print Assumptions C26_first_match_unique.
Print Assumptions C26_execution_is_one_run.
Print Assumptions C27_bad_arguments_never_reach_handler.
Print Assumptions C27_conversion_errors_total.
Print Assumptions C27_conversion_errors_unique.
Print Assumptions C27_no_errors_iff_all_convert.
Print Assumptions C28_converted_arguments_in_order.
Print Assumptions C28_converted_values_unique.
Print Assumptions C28_values_are_conversions.
Print Assumptions C28_converted_arguments_every_bound.
Print Assumptions C29_return_value_iff.
Print Assumptions C29_errors_exclude_return_value.
Print Assumptions C29_text_errors_exclude_return_value.
Print Assumptions C29_void_iff_no_text.
Print Assumptions C30_syntax_error.
Print Assumptions C30_no_name.
Print Assumptions C30_unknown_name.
Print Assumptions C30_wrong_arity.
Print Assumptions C30_no_errors_means_handler_ran.
Print Assumptions C31_wrong_arity_message.
Print Assumptions C31_enumeration_unique.
Print Assumptions C31_enumeration_exists.
Print Assumptions C32_echo_refuted.
Print Assumptions C32_echo_partial.
Print Assumptions C32_echo_named_partial.
Print Assumptions C32_text_echo_partial.
Print Assumptions C33_output_and_errors_in_order.
Print Assumptions C33_events_only_appended.
Print Assumptions C33_no_context_no_output.
Print Assumptions C34_exception_caught.
Print Assumptions C34_exception_propagates.
Print Assumptions C34_never_propagates_when_caught.
Print Assumptions C34_text_never_propagates_when_caught.
Print Assumptions C34_propagates_only_thrown.
