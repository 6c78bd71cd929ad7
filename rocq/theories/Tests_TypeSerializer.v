(** The project's own tests of the serializers, tests/runtime/TypeSerializerTests.cpp,
    run on the model.  They check the transcription of the code, not the code. *)
From Coq Require Import Ascii String NArith ZArith QArith Bool List.
From Verif Require Import Base Lexer StringConv Serializer FloatConv FloatSerializer Tests_StringConv.
Import ListNotations.
Local Open Scope Z_scope.

(** On every platform, with plain type names (the tests refuse to compile with
    COIL_CONFIG_TYPE_NAME_USE_INTEGER_ALIAS). *)
Definition int_of (p : platform) (t : ctype) : serializer := int_serializer p (Naming false false) t.

(** The user-defined types of the test file, lines 66-127. *)
Definition WithoutDefaultConstructor (p : platform) : serializer :=
  Ser Z (lit "WithoutDefaultConstructor")
      (fun input =>
         match from_value (int_of p CInt) input with
         | Value x => Value x
         | Error e => Error (createGenericError (lit "WithoutDefaultConstructor") input e)
         end)
      (fun x => lit "WithoutDefaultConstructor{" ++ printf_d x ++ lit "}").

Definition CompoundType (p : platform) : serializer :=
  Ser (Z * Z) (lit "CompoundType")
      (fun input =>
         match input with
         | [a; b] =>
             match from_value (int_of p CInt) [a], from_value (int_of p CInt) [b] with
             | Error e, _ => Error (createGenericError (lit "CompoundType") input e)
             | _, Error e => Error (createGenericError (lit "CompoundType") input e)
             | Value x, Value y => Value (x, y)
             end
         | _ => Error (createMismatchedSubvaluesError (lit "CompoundType") input 2)
         end)
      (fun x => lit "CompoundType{" ++ printf_d (fst x) ++ lit "," ++ printf_d (snd x) ++ lit "}").

Definition on_all (P : platform -> Prop) : Prop := Forall P platforms.
Local Ltac run := unfold on_all, platforms; repeat constructor; vm_compute; auto 20.

(** TestIntValidInputFromString, line 130. *)
Example TestIntValidInputFromString : on_all (fun p =>
  from_value (int_of p CInt) [lit "-2147483648"] = Value (-2147483648) /\
  from_value (int_of p CInt) [lit "2147483647"] = Value 2147483647 /\
  from_value (int_of p CUInt) [lit "0"] = Value 0 /\
  from_value (int_of p CUInt) [lit "4294967295"] = Value 4294967295).
Proof. run. Qed.

(** TestIntInvalidInputFromString, line 138. *)
Example TestIntInvalidInputFromString : on_all (fun p =>
  from_value (int_of p CInt) [lit "42"; lit "314"] =
    Error (lit "Unable to convert '42 314' to type 'int': Expected 1 subvalues, got 2") /\
  from_value (int_of p CInt) [lit "foo"; lit "bar"] =
    Error (lit "Unable to convert 'foo bar' to type 'int': Expected 1 subvalues, got 2") /\
  from_value (int_of p CInt) [lit "foo"] = Error (lit "Unable to convert 'foo' to type 'int'") /\
  from_value (int_of p CInt) [lit "42foo"] = Error (lit "Unable to convert '42foo' to type 'int'")).
Proof. run. Qed.

(** TestIntToString, line 146. *)
Example TestIntToString : on_all (fun p =>
  to_text (int_of p CInt) (-2147483648) = lit "-2147483648" /\
  to_text (int_of p CInt) 2147483647 = lit "2147483647" /\
  to_text (int_of p CUInt) 0 = lit "0" /\
  to_text (int_of p CUInt) 4294967295 = lit "4294967295").
Proof. run. Qed.

(** compareFloat, line 43, is weaker: it accepts values closer than 1e-6. *)
Definition reads (t : ftype) (s : string) (v : fval) : Prop :=
  from_value (float_serializer x87 true t) [lit s] = Value v /\
  from_value (float_serializer binary64 false t) [lit s] =
    Value (match t, v with TLongDouble, _ => match s with "3.14"%string => flit binary64 (314 # 100) | _ => v end
                         | _, _ => v end).

(** TestFloatValidInputFromString, line 154. *)
Example TestFloatValidInputFromString :
  let f q := flit binary32 q in
  let ten37 := (10 ^ 37 # 1)%Q in
  reads TFloat "1.0e-37" (f (1 # 10 ^ 37)) /\ reads TFloat "-1.0e-37" (f (-1 # 10 ^ 37)) /\
  reads TFloat "1.0e37" (f ten37) /\ reads TFloat "-1.0e37" (f (- ten37)%Q) /\
  reads TFloat "0" (f 0%Q) /\ reads TFloat "-0" (Fin true 0 (-149)) /\
  reads TFloat "3.14" (f (314 # 100)) /\ reads TFloat "-3.14" (f (-314 # 100)) /\
  reads TFloat "314" (f (314 # 1)) /\ reads TFloat "-314" (f (-314 # 1)) /\
  reads TFloat "inf" (Inf false) /\ reads TFloat "INF" (Inf false) /\
  reads TFloat "infinity" (Inf false) /\ reads TFloat "INFINITY" (Inf false) /\
  reads TFloat "-inf" (Inf true) /\ reads TFloat "-INF" (Inf true) /\
  reads TFloat "-infinity" (Inf true) /\ reads TFloat "-INFINITY" (Inf true) /\
  reads TFloat "nan" (NaN false) /\ reads TFloat "NAN" (NaN false).
Proof. vm_compute. auto 50. Qed.

(** TestFloatInvalidInputFromString, line 181. *)
Example TestFloatInvalidInputFromString :
  let F := float_serializer x87 true TFloat in
  from_value F [lit "42.0"; lit "314.0"] =
    Error (lit "Unable to convert '42.0 314.0' to type 'float': Expected 1 subvalues, got 2") /\
  from_value F [lit "foo"; lit "bar"] =
    Error (lit "Unable to convert 'foo bar' to type 'float': Expected 1 subvalues, got 2") /\
  from_value F [lit "foo"] = Error (lit "Unable to convert 'foo' to type 'float'") /\
  from_value F [lit "42.0foo"] = Error (lit "Unable to convert '42.0foo' to type 'float'").
Proof. vm_compute. auto. Qed.

(** TestPointersToString, line 189. *)
Example TestPointersToString : on_all (fun p =>
  p_text (pointer_printer (printer_of (int_of p CInt))) (Some 42) = Done (lit "42") /\
  p_text (pointer_printer (printer_of (int_of p CInt))) None = Done (lit "null")).
Proof. run. Qed.

(** TestOutOfRangeInputFromString, line 198.  The test assumes that char is signed: "128" is a
    valid unsigned char. *)
Example TestOutOfRangeInputFromString : on_all (fun p =>
  from_value (int_of p CChar) [lit "-129"] = Error (lit "Unable to convert '-129' to type 'char'") /\
  (char_signed p = true ->
   from_value (int_of p CChar) [lit "128"] = Error (lit "Unable to convert '128' to type 'char'")) /\
  from_value (int_of p CUChar) [lit "-1"] = Error (lit "Unable to convert '-1' to type 'unsigned char'") /\
  from_value (int_of p CUChar) [lit "256"] = Error (lit "Unable to convert '256' to type 'unsigned char'")).
Proof. run; discriminate. Qed.

(** TestBoolValidInputFromString, line 206. *)
Example TestBoolValidInputFromString : forall sg,
  map (fun s => from_value (bool_serializer sg) [lit s]) ["false"; "False"; "FALse"; "FALSE"; "0"]%string =
    repeat (Value false) 5 /\
  map (fun s => from_value (bool_serializer sg) [lit s]) ["true"; "True"; "TRue"; "TRUE"; "1"]%string =
    repeat (Value true) 5.
Proof. intros []; vm_compute; auto. Qed.

(** TestBoolInvalidInputFromString, line 221. *)
Example TestBoolInvalidInputFromString : forall sg,
  from_value (bool_serializer sg) [lit "foo"; lit "bar"] =
    Error (lit "Unable to convert 'foo bar' to type 'bool': Expected 1 subvalues, got 2") /\
  from_value (bool_serializer sg) [lit "2"] = Error (lit "Unable to convert '2' to type 'bool'") /\
  from_value (bool_serializer sg) [lit "none"] = Error (lit "Unable to convert 'none' to type 'bool'") /\
  from_value (bool_serializer sg) [lit "-1"] = Error (lit "Unable to convert '-1' to type 'bool'").
Proof. intros []; vm_compute; auto. Qed.

(** TestBoolToString, line 230, and the tests of strings, lines 236-252. *)
Example TestBoolToString : forall sg,
  to_text (bool_serializer sg) true = lit "true" /\ to_text (bool_serializer sg) false = lit "false".
Proof. intros []; vm_compute; auto. Qed.

Example TestStringTypes :
  from_value string_serializer [lit "foo"] = Value (lit "foo") /\
  from_value string_serializer [lit "foo"; lit "bar"] =
    Error (lit "Unable to convert 'foo bar' to type 'string': Expected 1 subvalues, got 2") /\
  to_text string_serializer (lit "foo") = lit "foo".
Proof. vm_compute. auto. Qed.

(** TestUserTypeFromStringValid, Invalid and ToString, lines 254-268. *)
Example TestUserType : on_all (fun p =>
  from_value (WithoutDefaultConstructor p) [lit "42"] = Value 42 /\
  from_value (WithoutDefaultConstructor p) [lit "foo"] =
    Error (lit "Unable to convert 'foo' to type 'WithoutDefaultConstructor': Unable to convert 'foo' to type 'int'") /\
  to_text (WithoutDefaultConstructor p) 42 = lit "WithoutDefaultConstructor{42}").
Proof. run. Qed.

(** TestCompoundUserTypeFromStringValid, Invalid and ToString, lines 270-292. *)
Example TestCompoundUserType : on_all (fun p =>
  from_value (CompoundType p) [lit "6"; lit "28"] = Value (6, 28) /\
  from_value (CompoundType p) [lit "6"; lit "28"; lit "496"] =
    Error (lit "Unable to convert '6 28 496' to type 'CompoundType': Expected 2 subvalues, got 3") /\
  from_value (CompoundType p) [lit "6"] =
    Error (lit "Unable to convert '6' to type 'CompoundType': Expected 2 subvalues, got 1") /\
  from_value (CompoundType p) [lit "six"; lit "28"] =
    Error (lit "Unable to convert 'six 28' to type 'CompoundType': Unable to convert 'six' to type 'int'") /\
  to_text (CompoundType p) (6, 28) = lit "CompoundType{6,28}" /\
  p_text (pointer_printer (printer_of (CompoundType p))) (Some (6, 28)) = Done (lit "CompoundType{6,28}") /\
  p_text (pointer_printer (printer_of (CompoundType p))) None = Done (lit "null")).
Proof. run. Qed.

(** TestArithmeticFromString, line 294. *)
Example TestArithmeticFromString :
  on_all (fun p => forallb (fun t => match from_value (int_of p t) [lit "0"] with
                                     | Value v => (v : Z) =? 0 | Error _ => false end) types = true) /\
  reads TFloat "3.14" (flit binary32 (314 # 100)) /\ reads TDouble "3.14" (flit binary64 (314 # 100)) /\
  reads TLongDouble "3.14" (flit x87 (314 # 100)).
Proof. split; [run|]. vm_compute. auto. Qed.
