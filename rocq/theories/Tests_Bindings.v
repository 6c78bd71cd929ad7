(** The project's own tests of Bindings, tests/runtime/BindingsTests.cpp and
    tests/runtime/PropertyTests.cpp, run on the model.  They check the transcription
    of the code, not the code.  Left out: the counts of constructions in the tests
    named ...Stats (the calls they count are checked), and whether two pointers to a
    command are equal. *)
From Coq Require Import Ascii String NArith ZArith Bool List.
From Verif Require Import Base Lexer StringConv Serializer FloatConv FloatSerializer UMap Exec
  Tests_StringConv Tests_TypeSerializer.
Import ListNotations.

Definition linux : platform := Platform true Long64.
Definition int : serializer := int_of linux CInt.
Definition size_t : serializer := int_of linux CULong.
Definition string_ : serializer := string_serializer.

(** ** Running a test *)

(** The state of the application is an int variable.  The function objects of a test
    are the elements of a list. *)
Definition fn := functor Z nat.
Definition nothing : fn := Functor false [] RVoid (fun _ => Ret (tt : rcarrier RVoid)).

(** bindings[name] = functors, from a list of the functors in order. *)
Fixpoint bind_all (next : nat) (s : state Z nat) (l : list (string * list fn)) : outcome (state Z nat) :=
  match l with
  | [] => Done s
  | (name, fs) :: l =>
      s <- add true s (lit name) (seq next (List.length fs)) ;; bind_all (next + List.length fs) s l
  end.

Definition code_of (l : list (string * list fn)) (n : nat) : fn :=
  nth n (concat (map snd l)) nothing.

(** What the tests look at: errors, return value, output and the variable. *)
Inductive seen :=
| Ends (errors : list bytes) (returned : option bytes) (output : bytes) (variable : Z)
| Throws (x : exn).

Fixpoint all_commands (catching : bool) (code : nat -> fn) (s : state Z nat) (cmds : list string)
  : outcome (list seen) :=
  match cmds with
  | [] => Done []
  | c :: cmds =>
      sr <- exec_text code true catching 3 s (lit c) ;;
      rest <- all_commands catching code (fst sr) cmds ;;
      Done (match snd sr with
            | inl r => Ends (r_errors r) (r_return r) (r_output r) (s_world (fst sr))
            | inr x => Throws x
            end :: rest)
  end.

Definition session (start : Z) (l : list (string * list fn)) (cmds : list string) : outcome (list seen) :=
  s <- bind_all 0 (fresh_bindings true start) l ;; all_commands true (code_of l) s cmds.

(** Shorthands for functions and results. *)
Definition void0 (p : prog Z nat unit) : fn := Functor false [] RVoid (fun _ => p).
Definition ret0 (T : serializer) (x : carrier T) : fn :=
  Functor false [] (RValue T) (fun _ => Ret (x : rcarrier (RValue T))).
Definition echo (T : serializer) : fn :=
  Functor false [T] (RValue T) (fun vs => Ret (fst vs : rcarrier (RValue T))).
Definition takes (ps : list serializer) : fn :=
  Functor false ps RVoid (fun _ => Ret (tt : rcarrier RVoid)).
Definition cstr (ps : list serializer) (s : string) : fn :=
  Functor false ps (RCString (Naming false false))
    (fun _ => Ret (Some (lit s) : rcarrier (RCString (Naming false false)))).
Definition count : fn := void0 (GetState (fun w => PutState (w + 1)%Z (Ret tt))).
Definition ok (s : string) : seen := Ends [] (Some (lit s)) [] 42.
Definition void_ : seen := Ends [] None [] 42.
Definition err (e : string) : seen := Ends [lit e] None [] 42.

Definition the_variable : list fn := variable int (fun w => w) (fun x _ => x).
Definition the_const_variable : list fn := const_variable int (fun w => w).

(** ** BindingsTests.cpp *)

(** TestVoidFunctionCallStats and TestVoidFunctionWithDotsCallStats, lines 269 and 284. *)
Example TestVoidFunctionCallStats :
  session 0 [("func", [count]); ("namespace.func", [count])]%string ["func"; "namespace.func"]%string =
  Done [Ends [] None [] 1; Ends [] None [] 2].
Proof. vm_compute. reflexivity. Qed.

(** TestErrorStats, line 362: failing commands do not call the functions or change the variable. *)
Example TestErrorStats :
  session 0 [("func_without_args", [count]); ("func_with_arg", [Functor false [int] RVoid
               (fun _ => GetState (fun w => PutState (w + 1)%Z (Ret (tt : rcarrier RVoid))))]);
             ("var", the_variable)]%string
    ["func_without_args arg"; "func_with_arg string_arg"; "var string_arg"; "var 42 43";
     "var 42"; "func_without_args"; "func_with_arg 42"]%string =
  Done [Ends [lit "Wrong number of arguments to 'func_without_args': expected 0, got 1"] None [] 0;
        Ends [lit "Unable to convert 'string_arg' to type 'int'"] None [] 0;
        Ends [lit "Unable to convert 'string_arg' to type 'int'"] None [] 0;
        Ends [lit "Wrong number of arguments to 'var': expected 0 or 1, got 2"] None [] 0;
        Ends [] (Some (lit "42")) [] 42; Ends [] None [] 43; Ends [] None [] 44].
Proof. vm_compute. reflexivity. Qed.

(** TestVoidFunctionCall, line 391. *)
Example TestVoidFunctionCall : session 42 [("func", [nothing])]%string ["func"]%string = Done [void_].
Proof. vm_compute. reflexivity. Qed.

(** TestFunctionWithStringArgument, line 401. *)
Example TestFunctionWithStringArgument :
  session 42 [("func", [echo string_])]%string ["func foo"; "func ""foo bar baz"""]%string =
  Done [ok "foo"; ok "foo bar baz"].
Proof. vm_compute. reflexivity. Qed.

(** TestVariableRead, TestVariableWrite, TestReadonlyVariableRead and
    TestReadonlyVariableWrite, lines 420-473. *)
Example TestVariable :
  session 42 [("var", the_variable)]%string ["var"; "var 365"]%string =
  Done [ok "42"; Ends [] (Some (lit "365")) [] 365].
Proof. vm_compute. reflexivity. Qed.

Example TestReadonlyVariable :
  session 42 [("var", the_const_variable)]%string ["var"; "var 365"]%string =
  Done [ok "42"; err "This variable is read-only"].
Proof. vm_compute. reflexivity. Qed.

(** TestOverloaded, line 475. *)
Example TestOverloaded :
  session 42 [("func", [cstr [int] "func1"; cstr [int; int] "func2"; cstr [int; int; int] "func3"])]%string
    ["func 42"; "func 42 42"; "func 42 42 42"]%string = Done [ok "func1"; ok "func2"; ok "func3"].
Proof. vm_compute. reflexivity. Qed.

(** TestOptionalEmpty, TestOptionalWithValue and TestOptionalWithError, lines 501-534. *)
Example TestOptional :
  session 42 [("func", [echo (optional_serializer int)])]%string ["func ()"; "func 42"; "func foo"]%string =
  Done [ok ""; ok "42";
        err "Unable to convert 'foo' to type 'optional<int>': Unable to convert 'foo' to type 'int'"].
Proof. vm_compute. reflexivity. Qed.

(** TestCompoundSyntax, line 536. *)
Example TestCompoundSyntax :
  session 42 [("get_compound", [echo (CompoundType linux)])]%string
    ["get_compound ( 6 , 28 )"; "get_compound (6 , 28)"; "get_compound (6, 28)"; "get_compound (6 28)";
     "get_compound (6,28)"; "get_compound 6,28"]%string = Done (repeat (ok "CompoundType{6,28}") 6).
Proof. vm_compute. reflexivity. Qed.

(** TestErrorNoFunction and TestErrorUndefinedFunction, lines 557 and 566. *)
Example TestErrorNoFunction :
  session 42 [] [""; "foo"]%string =
  Done [err "No function name is specified"; err "No function 'foo' is registered"].
Proof. vm_compute. reflexivity. Qed.

(** TestErrorWrongArgumentsCountWithNonUserArgs, TestErrorWrongArgumentsCount,
    ...Overload2, ...Overload3, TestErrorWrongArgumentTypes, lines 575-633. *)
Example TestErrorWrongArguments :
  session 42 [("func", [Functor true [int] RVoid (fun _ => Ret (tt : rcarrier RVoid))]);
              ("two", [takes [int; int]]);
              ("over2", [takes [int]; takes [int; int]]);
              ("over3", [takes [int]; takes [int; int]; takes [int; int; int]])]%string
    ["func foo bar"; "two 1 2 3"; "over2"; "over3"; "two foo bar"]%string =
  Done [err "Wrong number of arguments to 'func': expected 1, got 2";
        err "Wrong number of arguments to 'two': expected 2, got 3";
        err "Wrong number of arguments to 'over2': expected 1 or 2, got 0";
        err "Wrong number of arguments to 'over3': expected 1, 2 or 3, got 0";
        Ends [lit "Unable to convert 'foo' to type 'int'"; lit "Unable to convert 'bar' to type 'int'"]
             None [] 42].
Proof. vm_compute. reflexivity. Qed.

(** TestErrorWrongArgumentTypesVector and TestErrorWrongArgumentTypesVariable, lines 635 and 645. *)
Example TestErrorWrongArgumentTypes :
  session 42 [("sum", [takes [vector_serializer int]]); ("var", the_variable)]%string
    ["sum (foo bar baz)"; "var foo"]%string =
  Done [err "Unable to convert 'foo bar baz' to type 'vector<int>': Unable to convert 'foo' to type 'int'";
        err "Unable to convert 'foo' to type 'int'"].
Proof. vm_compute. reflexivity. Qed.

(** TestFunctionReturnValue and TestVectorFunctionReturnValue, lines 658 and 721. *)
Example TestFunctionReturnValue :
  session 42 [("sum", [Functor false [int; int] (RValue int)
                 (fun vs => Ret (fst vs + fst (snd vs) : rcarrier (RValue int))%Z)]);
              ("all", [Functor false [vector_serializer int] (RValue int)
                 (fun vs => Ret (fold_left Z.add (fst vs) 0 : rcarrier (RValue int))%Z)])]%string
    ["sum 8 800"; "all (1 1 2 3 5 8)"]%string = Done [ok "808"; ok "20"].
Proof. vm_compute. reflexivity. Qed.

(** TestOutput, line 669; logf and loglinef with "%s" are C64. *)
Example TestOutput :
  session 42 [("func_log", [Functor true [string_; string_] RVoid
                 (fun vs => Log (fst vs) (Log (fst (snd vs)) (Ret (tt : rcarrier RVoid))))]);
              ("func_logline", [Functor true [string_; string_] RVoid
                 (fun vs => LogLine (fst vs) (LogLine (fst (snd vs)) (Ret (tt : rcarrier RVoid))))])]%string
    ["func_log value1 value2"; "func_logline value1 value2"]%string =
  Done [Ends [] None (lit "value1value2") 42;
        Ends [] None (lit "value1" ++ ascii_of_N 10 :: lit "value2" ++ [ascii_of_N 10]) 42].
Proof. vm_compute. reflexivity. Qed.

(** TestContextError, line 711. *)
Example TestContextError :
  session 42 [("func", [Functor true [string_] RVoid
                 (fun vs => ReportError (lit "Custom error: " ++ fst vs)%list (Ret (tt : rcarrier RVoid)))])]%string
    ["func Test"]%string = Done [err "Custom error: Test"].
Proof. vm_compute. reflexivity. Qed.

(** TestUnbind and TestClear, lines 732 and 749. *)
Example TestUnbind :
  (s <- bind_all 0 (fresh_bindings true 42%Z) [("func1", [nothing]); ("func2", [nothing])]%string ;;
   s <- remove true s (lit "func1") ;;
   all_commands true (fun _ => nothing) s ["func1"; "func2"]%string) =
  Done [err "No function 'func1' is registered"; void_].
Proof. vm_compute. reflexivity. Qed.

Example TestClear :
  (s <- bind_all 0 (fresh_bindings true 42%Z) [("func1", [nothing]); ("func2", [nothing])]%string ;;
   all_commands true (fun _ => nothing) (clear_all s) ["func1"; "func2"]%string) =
  Done [err "No function 'func1' is registered"; err "No function 'func2' is registered"].
Proof. vm_compute. reflexivity. Qed.

(** TestSyntaxError, line 767. *)
Example TestSyntaxError :
  session 42 [] ["func = arg"]%string =
  Done [err "Syntax error: Unexpected token '=': no name for the named argument is provided"].
Proof. vm_compute. reflexivity. Qed.

(** TestStdException and TestNonStdException, lines 777 and 793. *)
Definition throwing : list (string * list fn) :=
  [("func1", [void0 (Throw (StdException (lit "Test runtime exception")))]);
   ("func2", [void0 (Throw OtherException)])]%string.

Example TestException :
  session 42 throwing ["func1"; "func2"]%string =
  Done [err "Exception caught during execution: Test runtime exception";
        err "Exception caught during execution"].
Proof. vm_compute. reflexivity. Qed.

Example TestExceptionNotCaught :
  (s <- bind_all 0 (fresh_bindings true 42%Z) throwing ;;
   all_commands false (code_of throwing) s ["func1"; "func2"]%string) =
  Done [Throws (StdException (lit "Test runtime exception")); Throws OtherException].
Proof. vm_compute. reflexivity. Qed.

(** TestValue, line 809. *)
Example TestValue :
  session 42 [("func_receive", [Functor false [value_serializer] (RValue int)
                 (fun vs => match from_value int (fst vs) with
                            | Value x => Ret (x : rcarrier (RValue int))
                            | Error _ => Throw OtherException
                            end)]);
              ("func_return", [echo value_serializer])]%string
    ["func_receive 42"; "func_return Value"]%string = Done [ok "42"; ok "Value"].
Proof. vm_compute. reflexivity. Qed.

(** TestNamedArgsGet, line 825. *)
Definition the_named : list (bytes * value) :=
  match parse_input true default_cfg (lit "func arg1 = str arg2 = 42") with
  | Done (Value i) => i_named i
  | _ => []
  end.

Example TestNamedArgsGet :
  named_get_as int the_named (lit "non_existent_arg") =
    inr (MissingKey (lit "Missing named argument 'non_existent_arg'")) /\
  named_get_as int the_named (lit "arg1") =
    inr (TypeMismatch (lit "Unable to convert 'str' to type 'int'")) /\
  named_get_as int the_named (lit "arg2") = inl 42%Z.
Proof. vm_compute. auto. Qed.

(** TestNamedArgsGetOrReport, line 849: the function logs what it gets. *)
Definition show_int (o : option Z) (k : prog Z nat unit) : prog Z nat unit :=
  HasErrors (fun b => Log (match o with Some z => printf_d z | None => lit "none" end)
                          (Log (if b then lit "!" else lit " ") k)).
Definition show_value (o : option value) (k : prog Z nat unit) : prog Z nat unit :=
  HasErrors (fun b => Log (match o with Some v => value_str v | None => lit "none" end)
                          (Log (if b then lit "!" else lit " ") k)).

Example TestNamedArgsGetOrReport :
  session 42 [("func", [Functor true [] RVoid (fun _ =>
      getOrReport_as int (lit "arg2") false None (fun o => show_int o (
      getOrReport_as int (lit "arg2") true None (fun o => show_int o (
      getOrReport_as int (lit "non_existent_arg") false (Some 18%Z) (fun o => show_int o (
      getOrReport (lit "arg1") true (fun o => show_value o (
      getOrReport (lit "non_existent_arg") false (fun o => show_value o (
      Ret (tt : rcarrier RVoid))))))))))))])]%string
    ["func arg1 = str arg2 = 42"]%string =
  Done [Ends [] None (lit "42 42 18 str none ") 42].
Proof. vm_compute. reflexivity. Qed.

(** TestNamedArgsTypedGetOrReportContextErrors, TestNamedArgsAnyGetOrReportContextErrors and
    TestNamedArgsSize, lines 893-939. *)
Example TestNamedArgsErrors :
  session 42 [("typed", [Functor true [] RVoid (fun _ =>
                 getOrReport_as int (lit "arg") true (Some 18%Z) (fun _ => Ret (tt : rcarrier RVoid)))]);
              ("any", [Functor true [] RVoid (fun _ =>
                 getOrReport (lit "arg") true (fun _ => Ret (tt : rcarrier RVoid)))]);
              ("size", [Functor true [] (RValue size_t) (fun _ =>
                 GetNamed (fun l => Ret (Z.of_nat (List.length l) : rcarrier (RValue size_t))))])]%string
    ["typed"; "typed arg = str"; "any"; "size"; "size arg1=foo arg2=bar"]%string =
  Done [err "Missing named argument 'arg'"; err "Unable to convert 'str' to type 'int'";
        err "Missing named argument 'arg'"; ok "0"; ok "2"].
Proof. vm_compute. reflexivity. Qed.

(** TestBind, line 941. *)
Example TestBind : session 42 [("func", [ret0 int 42%Z])]%string ["func"]%string = Done [ok "42"].
Proof. vm_compute. reflexivity. Qed.

(** TestTypeNames, line 988. *)
Example TestTypeNames :
  rname RVoid = lit "void" /\ tname (bool_serializer true) = lit "bool" /\
  map (fun t => tname (int_of linux t)) types =
    map lit ["char"; "signed char"; "short"; "int"; "long"; "long long"; "unsigned char";
             "unsigned short"; "unsigned int"; "unsigned long"; "unsigned long long"]%string /\
  map (fun t => tname (float_serializer x87 true t)) [TFloat; TDouble; TLongDouble] =
    map lit ["float"; "double"; "long double"]%string.
Proof. vm_compute. auto. Qed.

(** TestAnyArgToString, line 1010. *)
Example TestAnyArgToString : value_str [lit "foo"; lit "bar"] = lit "foo bar".
Proof. vm_compute. reflexivity. Qed.

(** TestPointers, line 1016. *)
Example TestPointers :
  session 42 [("func", [Functor false [bool_serializer true] (RPointer (CompoundType linux))
     (fun vs => Ret (if fst vs : bool then None else Some (6, 28)%Z : rcarrier (RPointer (CompoundType linux))))])]%string
    ["func false"; "func true"]%string = Done [ok "CompoundType{6,28}"; ok "null"].
Proof. vm_compute. reflexivity. Qed.

(** TestCustomLexer, line 1047. *)
Example TestCustomLexer :
  (s <- bind_all 0 (set_lexer (fresh_bindings true 42%Z) (Some (fun t => Done (Value (Input t [] [])))))
          [("func with spaces", [ret0 int 42%Z])]%string ;;
   all_commands true (fun _ => ret0 int 42%Z) s ["func with spaces"]%string) = Done [ok "42"].
Proof. vm_compute. reflexivity. Qed.

(** TestFunctorMetadata and TestEmptyFunctorMetadata, lines 1070 and 1091. *)
Definition the_functor : fn :=
  Functor false [int; float_serializer x87 true TFloat] (RValue (bool_serializer true))
    (fun _ => Ret (true : rcarrier (RValue (bool_serializer true)))).

Example TestFunctorMetadata :
  (s <- bind_all 0 (fresh_bindings true 42%Z) [("func", [the_functor])]%string ;;
   c <- get true s (lit "func") ;;
   Done (option_map (fun c => map (fun f => (parameterTypes the_functor, returnType the_functor, snd f))
                                  (c_functors c)) c)) =
  Done (Some [([lit "int"; lit "float"], lit "bool", 0%nat)]) /\
  get true (fresh_bindings true 42%Z : state Z nat) (lit "func") = Done None.
Proof. vm_compute. auto. Qed.

(** ** PropertyTests.cpp *)

Definition get_variable : prog Z nat Z := GetState (fun w => Ret w).
Definition set_variable (x : Z) : prog Z nat unit := PutState x (Ret tt).

(** TestValidGet, TestValidSet, TestReadonlyGet, TestReadonlySet and TestWrongArguments,
    lines 38-107, and the same with bindProperty, lines 109-178. *)
Example TestProperty :
  session 17 [("func", property int get_variable set_variable);
              ("const", const_property int get_variable);
              ("bound", const_bound_property int get_variable)]%string
    ["func"; "const"; "bound"; "const 42"; "bound 42"; "func 1 2"; "func 42"; "bound"]%string =
  Done [Ends [] (Some (lit "17")) [] 17; Ends [] (Some (lit "17")) [] 17; Ends [] (Some (lit "17")) [] 17;
        Ends [lit "This property is read-only"] None [] 17;
        Ends [lit "This property is read-only"] None [] 17;
        Ends [lit "Wrong number of arguments to 'func': expected 0 or 1, got 2"] None [] 17;
        Ends [] (Some (lit "42")) [] 42; Ends [] (Some (lit "42")) [] 42].
Proof. vm_compute. reflexivity. Qed.
