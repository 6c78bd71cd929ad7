(** The project's own tests of the lexer, tests/runtime/LexerTests.cpp, run on the
    model: 101 of 102 assertions (TestGenerated, which parses 10000 random inputs, is
    an instance of C04).  They check the transcription of the code, not the code. *)
From Coq Require Import Ascii String NArith Bool List.
From Verif Require Import Base Lexer.
Import ListNotations.

(** Every command of the table is parsed to the result beside it, whether char is
    signed or not. *)
Definition passes (t : list (bytes * expected input)) : Prop :=
  forall sg, map (fun p => parse_input sg default_cfg (fst p)) t = map (fun p => Done (snd p)) t.

(** TestSpacesEmpty, tests/runtime/LexerTests.cpp:190. *)
Definition TestSpacesEmpty : list (bytes * expected input) :=
  [(lit "", Value (Input (lit "") [] []));
   (lit " ", Value (Input (lit "") [] []));
   ([ascii_of_N 9], Value (Input (lit "") [] []));
   (lit "  ", Value (Input (lit "") [] []));
   (([ascii_of_N 9] ++ [ascii_of_N 9]), Value (Input (lit "") [] []));
   ((lit " " ++ [ascii_of_N 9]), Value (Input (lit "") [] []));
   (([ascii_of_N 9] ++ lit " "), Value (Input (lit "") [] []))].

Example TestSpacesEmpty_passes : passes TestSpacesEmpty.
Proof. intros []; vm_compute; reflexivity. Qed.

(** TestSpacesNoArgs, tests/runtime/LexerTests.cpp:203. *)
Definition TestSpacesNoArgs : list (bytes * expected input) :=
  [(lit " foo.bar.func ", Value (Input (lit "foo.bar.func") [] []))].

Example TestSpacesNoArgs_passes : passes TestSpacesNoArgs.
Proof. intros []; vm_compute; reflexivity. Qed.

(** TestSpacesArgs, tests/runtime/LexerTests.cpp:210. *)
Definition TestSpacesArgs : list (bytes * expected input) :=
  [(lit " func arg1 arg2 ", Value (Input (lit "func") [[lit "arg1"]; [lit "arg2"]] []));
   (lit " func  arg1 arg2 ", Value (Input (lit "func") [[lit "arg1"]; [lit "arg2"]] []));
   (lit " func arg1  arg2 ", Value (Input (lit "func") [[lit "arg1"]; [lit "arg2"]] []))].

Example TestSpacesArgs_passes : passes TestSpacesArgs.
Proof. intros []; vm_compute; reflexivity. Qed.

(** TestSpacesNamedArgs, tests/runtime/LexerTests.cpp:221. *)
Definition TestSpacesNamedArgs : list (bytes * expected input) :=
  [(lit " func arg1=foo arg2=bar ", Value (Input (lit "func") [] [(lit "arg1", [lit "foo"]); (lit "arg2", [lit "bar"])]));
   (lit " func  arg1=foo arg2=bar ", Value (Input (lit "func") [] [(lit "arg1", [lit "foo"]); (lit "arg2", [lit "bar"])]));
   (lit " func  arg1 =foo arg2=bar ", Value (Input (lit "func") [] [(lit "arg1", [lit "foo"]); (lit "arg2", [lit "bar"])]));
   (lit " func  arg1= foo arg2=bar ", Value (Input (lit "func") [] [(lit "arg1", [lit "foo"]); (lit "arg2", [lit "bar"])]));
   (lit " func  arg1 = foo arg2=bar ", Value (Input (lit "func") [] [(lit "arg1", [lit "foo"]); (lit "arg2", [lit "bar"])]));
   (lit " func  arg1 = foo arg2 =bar ", Value (Input (lit "func") [] [(lit "arg1", [lit "foo"]); (lit "arg2", [lit "bar"])]));
   (lit " func  arg1 = foo arg2= bar ", Value (Input (lit "func") [] [(lit "arg1", [lit "foo"]); (lit "arg2", [lit "bar"])]));
   (lit " func  arg1 = foo arg2 = bar ", Value (Input (lit "func") [] [(lit "arg1", [lit "foo"]); (lit "arg2", [lit "bar"])]));
   (lit " func  arg1 = foo  arg2 = bar ", Value (Input (lit "func") [] [(lit "arg1", [lit "foo"]); (lit "arg2", [lit "bar"])]))].

Example TestSpacesNamedArgs_passes : passes TestSpacesNamedArgs.
Proof. intros []; vm_compute; reflexivity. Qed.

(** TestCompoundArgs, tests/runtime/LexerTests.cpp:238. *)
Definition TestCompoundArgs : list (bytes * expected input) :=
  [(lit "func arg1,arg2", Value (Input (lit "func") [[lit "arg1"; lit "arg2"]] []));
   (lit "func (arg1 arg2)", Value (Input (lit "func") [[lit "arg1"; lit "arg2"]] []));
   (lit "func (arg1,arg2)", Value (Input (lit "func") [[lit "arg1"; lit "arg2"]] []));
   (lit "func (arg1, arg2)", Value (Input (lit "func") [[lit "arg1"; lit "arg2"]] []));
   (lit "func (arg1 , arg2)", Value (Input (lit "func") [[lit "arg1"; lit "arg2"]] []));
   (lit "func ( arg1 , arg2 )", Value (Input (lit "func") [[lit "arg1"; lit "arg2"]] []));
   (lit "func ( arg1 arg2 )", Value (Input (lit "func") [[lit "arg1"; lit "arg2"]] []))].

Example TestCompoundArgs_passes : passes TestCompoundArgs.
Proof. intros []; vm_compute; reflexivity. Qed.

(** TestCompoundNamedArgs, tests/runtime/LexerTests.cpp:251. *)
Definition TestCompoundNamedArgs : list (bytes * expected input) :=
  [(lit "func arg=arg1,arg2", Value (Input (lit "func") [] [(lit "arg", [lit "arg1"; lit "arg2"])]));
   (lit "func arg=(arg1 arg2)", Value (Input (lit "func") [] [(lit "arg", [lit "arg1"; lit "arg2"])]));
   (lit "func arg=(arg1,arg2)", Value (Input (lit "func") [] [(lit "arg", [lit "arg1"; lit "arg2"])]));
   (lit "func arg=(arg1, arg2)", Value (Input (lit "func") [] [(lit "arg", [lit "arg1"; lit "arg2"])]));
   (lit "func arg=(arg1 , arg2)", Value (Input (lit "func") [] [(lit "arg", [lit "arg1"; lit "arg2"])]));
   (lit "func arg=( arg1 , arg2 )", Value (Input (lit "func") [] [(lit "arg", [lit "arg1"; lit "arg2"])]));
   (lit "func arg=( arg1 arg2 )", Value (Input (lit "func") [] [(lit "arg", [lit "arg1"; lit "arg2"])]))].

Example TestCompoundNamedArgs_passes : passes TestCompoundNamedArgs.
Proof. intros []; vm_compute; reflexivity. Qed.

(** TestCompoundNamedArgsEdgeCases, tests/runtime/LexerTests.cpp:264. *)
Definition TestCompoundNamedArgsEdgeCases : list (bytes * expected input) :=
  [(lit "func arg=arg(um)ent", Value (Input (lit "func") [[lit "um"]; [lit "ent"]] [(lit "arg", [lit "arg"])]));
   (lit "func arg=()", Value (Input (lit "func") [] [(lit "arg", [])]));
   (lit "func arg=( )", Value (Input (lit "func") [] [(lit "arg", [])]));
   (lit "func arg=(,)", Value (Input (lit "func") [] [(lit "arg", [])]));
   (lit "func arg=( , )", Value (Input (lit "func") [] [(lit "arg", [])]))].

Example TestCompoundNamedArgsEdgeCases_passes : passes TestCompoundNamedArgsEdgeCases.
Proof. intros []; vm_compute; reflexivity. Qed.

(** TestEmpty, tests/runtime/LexerTests.cpp:275. *)
Definition TestEmpty : list (bytes * expected input) :=
  [(lit "", Value (Input (lit "") [] []))].

Example TestEmpty_passes : passes TestEmpty.
Proof. intros []; vm_compute; reflexivity. Qed.

(** TestNoArgs, tests/runtime/LexerTests.cpp:282. *)
Definition TestNoArgs : list (bytes * expected input) :=
  [(lit "func", Value (Input (lit "func") [] []))].

Example TestNoArgs_passes : passes TestNoArgs.
Proof. intros []; vm_compute; reflexivity. Qed.

(** TestArgs, tests/runtime/LexerTests.cpp:289. *)
Definition TestArgs : list (bytes * expected input) :=
  [(lit "func arg1", Value (Input (lit "func") [[lit "arg1"]] []));
   (lit "func arg1 arg2", Value (Input (lit "func") [[lit "arg1"]; [lit "arg2"]] []))].

Example TestArgs_passes : passes TestArgs.
Proof. intros []; vm_compute; reflexivity. Qed.

(** TestNamedArgs, tests/runtime/LexerTests.cpp:297. *)
Definition TestNamedArgs : list (bytes * expected input) :=
  [(lit "func arg1=foo", Value (Input (lit "func") [] [(lit "arg1", [lit "foo"])]));
   (lit "func arg1=foo arg2=bar", Value (Input (lit "func") [] [(lit "arg1", [lit "foo"]); (lit "arg2", [lit "bar"])]))].

Example TestNamedArgs_passes : passes TestNamedArgs.
Proof. intros []; vm_compute; reflexivity. Qed.

(** TestArgsAndNamedArgs, tests/runtime/LexerTests.cpp:305. *)
Definition TestArgsAndNamedArgs : list (bytes * expected input) :=
  [(lit "func arg1 arg2 arg3=foo arg4=bar", Value (Input (lit "func") [[lit "arg1"]; [lit "arg2"]] [(lit "arg3", [lit "foo"]); (lit "arg4", [lit "bar"])]))].

Example TestArgsAndNamedArgs_passes : passes TestArgsAndNamedArgs.
Proof. intros []; vm_compute; reflexivity. Qed.

(** TestIntegerArgs, tests/runtime/LexerTests.cpp:312. *)
Definition TestIntegerArgs : list (bytes * expected input) :=
  [(lit "foo.bar.func 1", Value (Input (lit "foo.bar.func") [[lit "1"]] []));
   (lit "foo.bar.func 1 arg", Value (Input (lit "foo.bar.func") [[lit "1"]; [lit "arg"]] []));
   (lit "foo.bar.func 1 arg 2", Value (Input (lit "foo.bar.func") [[lit "1"]; [lit "arg"]; [lit "2"]] []))].

Example TestIntegerArgs_passes : passes TestIntegerArgs.
Proof. intros []; vm_compute; reflexivity. Qed.

(** TestIntegerNamedArgs, tests/runtime/LexerTests.cpp:321. *)
Definition TestIntegerNamedArgs : list (bytes * expected input) :=
  [(lit "foo.bar.func arg1=1", Value (Input (lit "foo.bar.func") [] [(lit "arg1", [lit "1"])]));
   (lit "foo.bar.func arg1=1 arg2=arg", Value (Input (lit "foo.bar.func") [] [(lit "arg1", [lit "1"]); (lit "arg2", [lit "arg"])]));
   (lit "foo.bar.func arg1=1 arg2=arg arg3=2", Value (Input (lit "foo.bar.func") [] [(lit "arg1", [lit "1"]); (lit "arg2", [lit "arg"]); (lit "arg3", [lit "2"])]))].

Example TestIntegerNamedArgs_passes : passes TestIntegerNamedArgs.
Proof. intros []; vm_compute; reflexivity. Qed.

(** TestFloatArgs, tests/runtime/LexerTests.cpp:330. *)
Definition TestFloatArgs : list (bytes * expected input) :=
  [(lit "foo.bar.func 3.14", Value (Input (lit "foo.bar.func") [[lit "3.14"]] []));
   (lit "foo.bar.func 3.14 arg", Value (Input (lit "foo.bar.func") [[lit "3.14"]; [lit "arg"]] []));
   (lit "foo.bar.func 3.14 arg 2.0", Value (Input (lit "foo.bar.func") [[lit "3.14"]; [lit "arg"]; [lit "2.0"]] []))].

Example TestFloatArgs_passes : passes TestFloatArgs.
Proof. intros []; vm_compute; reflexivity. Qed.

(** TestFloatNamedArgs, tests/runtime/LexerTests.cpp:339. *)
Definition TestFloatNamedArgs : list (bytes * expected input) :=
  [(lit "foo.bar.func arg1=3.14", Value (Input (lit "foo.bar.func") [] [(lit "arg1", [lit "3.14"])]));
   (lit "foo.bar.func arg1=3.14 arg2=arg", Value (Input (lit "foo.bar.func") [] [(lit "arg1", [lit "3.14"]); (lit "arg2", [lit "arg"])]));
   (lit "foo.bar.func arg1=3.14 arg2=arg arg3=2.0", Value (Input (lit "foo.bar.func") [] [(lit "arg1", [lit "3.14"]); (lit "arg2", [lit "arg"]); (lit "arg3", [lit "2.0"])]))].

Example TestFloatNamedArgs_passes : passes TestFloatNamedArgs.
Proof. intros []; vm_compute; reflexivity. Qed.

(** TestShortFloatArgs, tests/runtime/LexerTests.cpp:348. *)
Definition TestShortFloatArgs : list (bytes * expected input) :=
  [(lit "foo.bar.func .14", Value (Input (lit "foo.bar.func") [[lit ".14"]] []));
   (lit "foo.bar.func .14 arg", Value (Input (lit "foo.bar.func") [[lit ".14"]; [lit "arg"]] []));
   (lit "foo.bar.func .14 arg .0", Value (Input (lit "foo.bar.func") [[lit ".14"]; [lit "arg"]; [lit ".0"]] []))].

Example TestShortFloatArgs_passes : passes TestShortFloatArgs.
Proof. intros []; vm_compute; reflexivity. Qed.

(** TestShortFloatNamedArgs, tests/runtime/LexerTests.cpp:357. *)
Definition TestShortFloatNamedArgs : list (bytes * expected input) :=
  [(lit "foo.bar.func arg1=.14", Value (Input (lit "foo.bar.func") [] [(lit "arg1", [lit ".14"])]));
   (lit "foo.bar.func arg1=.14 arg2=arg", Value (Input (lit "foo.bar.func") [] [(lit "arg1", [lit ".14"]); (lit "arg2", [lit "arg"])]));
   (lit "foo.bar.func arg1=.14 arg2=arg arg3=.0", Value (Input (lit "foo.bar.func") [] [(lit "arg1", [lit ".14"]); (lit "arg2", [lit "arg"]); (lit "arg3", [lit ".0"])]))].

Example TestShortFloatNamedArgs_passes : passes TestShortFloatNamedArgs.
Proof. intros []; vm_compute; reflexivity. Qed.

(** TestStrings, tests/runtime/LexerTests.cpp:366. *)
Definition TestStrings : list (bytes * expected input) :=
  [(lit "foo.bar.func foo 'bar' baz", Value (Input (lit "foo.bar.func") [[lit "foo"]; [lit "bar"]; [lit "baz"]] []));
   (lit "foo.bar.func foo ' bar ' baz", Value (Input (lit "foo.bar.func") [[lit "foo"]; [lit " bar "]; [lit "baz"]] []));
   (lit "foo.bar.func 'foo bar baz'", Value (Input (lit "foo.bar.func") [[lit "foo bar baz"]] []));
   (lit "foo.bar.func 'foo,bar,baz'", Value (Input (lit "foo.bar.func") [[lit "foo,bar,baz"]] []));
   (lit "foo.bar.func 'foo;bar;baz'", Value (Input (lit "foo.bar.func") [[lit "foo;bar;baz"]] []));
   (lit "foo.bar.func 'foo|bar|baz'", Value (Input (lit "foo.bar.func") [[lit "foo|bar|baz"]] []));
   (lit "foo.bar.func 'foo=bar=baz'", Value (Input (lit "foo.bar.func") [[lit "foo=bar=baz"]] []));
   (lit "foo.bar.func '(foo bar baz)'", Value (Input (lit "foo.bar.func") [[lit "(foo bar baz)"]] []));
   (lit "foo.bar.func ('foo   bar' baz)", Value (Input (lit "foo.bar.func") [[lit "foo   bar"; lit "baz"]] []));
   (lit "foo.bar.func foo ""bar"" baz", Value (Input (lit "foo.bar.func") [[lit "foo"]; [lit "bar"]; [lit "baz"]] []));
   (lit "foo.bar.func foo "" bar "" baz", Value (Input (lit "foo.bar.func") [[lit "foo"]; [lit " bar "]; [lit "baz"]] []));
   (lit "foo.bar.func ""foo bar baz""", Value (Input (lit "foo.bar.func") [[lit "foo bar baz"]] []));
   (lit "foo.bar.func ""foo,bar,baz""", Value (Input (lit "foo.bar.func") [[lit "foo,bar,baz"]] []));
   (lit "foo.bar.func ""foo;bar;baz""", Value (Input (lit "foo.bar.func") [[lit "foo;bar;baz"]] []));
   (lit "foo.bar.func ""foo|bar|baz""", Value (Input (lit "foo.bar.func") [[lit "foo|bar|baz"]] []));
   (lit "foo.bar.func ""foo=bar=baz""", Value (Input (lit "foo.bar.func") [[lit "foo=bar=baz"]] []));
   (lit "foo.bar.func ""(foo bar baz)""", Value (Input (lit "foo.bar.func") [[lit "(foo bar baz)"]] []));
   (lit "foo.bar.func (""foo   bar"" baz)", Value (Input (lit "foo.bar.func") [[lit "foo   bar"; lit "baz"]] []))].

Example TestStrings_passes : passes TestStrings.
Proof. intros []; vm_compute; reflexivity. Qed.

(** TestErrors, tests/runtime/LexerTests.cpp:390. *)
Definition TestErrors : list (bytes * expected input) :=
  [(lit "=val", Error (lit "Unexpected token '=' at the beginning of the expression"));
   (lit "command=arg", Error (lit "Unexpected token '=': no name for the named argument is provided"));
   (lit "command arg=val=foo", Error (lit "Unexpected token '=': no name for the named argument is provided"));
   (lit "command arg=", Error (lit "Expected an argument value, found end of string"));
   (lit "command arg==", Error (lit "Expected an argument value, found '='"));
   (lit "command arg==value", Error (lit "Expected an argument value, found '='"));
   (lit "==value", Error (lit "Unexpected token '=' at the beginning of the expression"))].

Example TestErrors_passes : passes TestErrors.
Proof. intros []; vm_compute; reflexivity. Qed.

(** TestCompoundArgsErrors, tests/runtime/LexerTests.cpp:403. *)
Definition TestCompoundArgsErrors : list (bytes * expected input) :=
  [(lit "func (arg,arg", Error (lit "Token '(' doesn't have a corresponding opening/closing token"));
   (lit "func arg,arg)", Error (lit "Token ')' doesn't have a corresponding opening/closing token"));
   (lit "func arg(ument", Error (lit "Token '(' doesn't have a corresponding opening/closing token"));
   (lit "func argum)ent", Error (lit "Token ')' doesn't have a corresponding opening/closing token"));
   (lit "func (", Error (lit "Token '(' doesn't have a corresponding opening/closing token"));
   (lit "func )", Error (lit "Token ')' doesn't have a corresponding opening/closing token"))].

Example TestCompoundArgsErrors_passes : passes TestCompoundArgsErrors.
Proof. intros []; vm_compute; reflexivity. Qed.

(** TestStringsErrors, tests/runtime/LexerTests.cpp:417. *)
Definition TestStringsErrors : list (bytes * expected input) :=
  [(lit "func arg,arg""", Error (lit "Token '""' doesn't have a corresponding opening/closing quote"));
   (lit "func arg arg""", Error (lit "Token '""' doesn't have a corresponding opening/closing quote"));
   (lit "func ""arg,arg", Error (lit "Token '""' doesn't have a corresponding opening/closing quote"));
   (lit "func ""arg arg", Error (lit "Token '""' doesn't have a corresponding opening/closing quote"));
   (lit "func argum""ent", Error (lit "Token '""' doesn't have a corresponding opening/closing quote"));
   (lit "func """, Error (lit "Token '""' doesn't have a corresponding opening/closing quote"))].

Example TestStringsErrors_passes : passes TestStringsErrors.
Proof. intros []; vm_compute; reflexivity. Qed.
