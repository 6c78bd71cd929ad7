(** Properties C15-C19 and C48: conversions between text and typed values. *)
From Coq Require Import Ascii String NArith ZArith Bool PeanoNat Lia List.
Import ListNotations.
From Verif Require Import Util Base Lexer StringConv StringConvSpec StringConvProofs
  Serializer SerializerSpec SerializerProofs.

(** * C15  Booleans: exactly six spellings up to case *)

Theorem C15_bool_true_iff : forall sg v,
  from_value (bool_serializer sg) v = Value true <->
  exists s, v = [s] /\ (s = lit "1" \/ spells s (lit "true")).
Proof. exact bool_from_true. Qed.

Theorem C15_bool_false_iff : forall sg v,
  from_value (bool_serializer sg) v = Value false <->
  exists s, v = [s] /\ (s = lit "0" \/ spells s (lit "false")).
Proof. exact bool_from_false. Qed.

Theorem C15_bool_round_trip : forall sg b,
  from_value (bool_serializer sg) [to_text (bool_serializer sg) b] = Value b.
Proof. intros [] []; reflexivity. Qed.

(** The accepted texts, written out by length: at most 2 + 16 + 32 strings. *)
Theorem C15_bool_error_iff : forall sg v,
  (exists e, from_value (bool_serializer sg) v = Error e) <->
  ~ exists s, v = [s] /\
      (s = lit "1" \/ s = lit "0" \/ spells s (lit "true") \/ spells s (lit "false")).
Proof.
  intros sg v. destruct (from_value (bool_serializer sg) v) as [[]|e] eqn:E.
  - apply C15_bool_true_iff in E. destruct E as (s & -> & H). split.
    + now intros (e & ?).
    + intros N. exfalso. apply N. exists s. tauto.
  - apply C15_bool_false_iff in E. destruct E as (s & -> & H). split.
    + now intros (e & ?).
    + intros N. exfalso. apply N. exists s. tauto.
  - split; [|eauto]. intros _ (s & Hv & H).
    assert (D : from_value (bool_serializer sg) v = Value true \/
                from_value (bool_serializer sg) v = Value false).
    { destruct H as [H|[H|[H|H]]].
      - left. apply C15_bool_true_iff. eauto.
      - right. apply C15_bool_false_iff. eauto.
      - left. apply C15_bool_true_iff. eauto.
      - right. apply C15_bool_false_iff. eauto. }
    destruct D; congruence.
Qed.

Example C15_ex :
  from_value (bool_serializer true) [lit "TrUe"] = Value true /\
  spells (lit "TrUe") (lit "true") /\
  from_value (bool_serializer true) [lit "yes"]
    = Error (lit "Unable to convert 'yes' to type 'bool'").
Proof.
  split; [vm_compute; reflexivity|]. split; [|vm_compute; reflexivity].
  repeat apply Forall2_cons; try apply Forall2_nil; vm_compute; auto.
Qed.

(** * C16  Strings are passed through unchanged *)

Theorem C16_string_accept_iff : forall v s,
  from_value string_serializer v = Value s <-> v = [s].
Proof.
  intros v s. cbn. unfold stringFromString. destruct v as [|x [|y v]].
  - split; [easy|]. intros E; discriminate E.
  - split; [now intros [= ->]|now intros [= ->]].
  - split; [easy|]. intros E; discriminate E.
Qed.

Theorem C16_string_reject : forall v,
  length v <> 1 -> value_no_nul v ->
  exists e d, from_value string_serializer v = Error e /\
    mismatch_detail 1 (length v) d /\ conversion_error (lit "string") v (Some d) e.
Proof.
  intros v Hl Hv.
  assert (Hn : no_nul (lit "string")) by now apply no_nul_lit.
  destruct (mismatched_error (lit "string") v 1 Hn Hv) as (d & H1 & H2).
  exists (createMismatchedSubvaluesError (lit "string") v 1), d.
  split; [|easy]. cbn. unfold stringFromString. destruct v as [|x [|y v]]; easy.
Qed.

Theorem C16_string_round_trip : forall s,
  from_value string_serializer [to_text string_serializer s] = Value s /\
  to_text string_serializer s = s.
Proof. intros s. split; reflexivity. Qed.

(** A coil::Value parameter receives the whole argument; it prints as its sub-values
    joined by a space. *)
Theorem C16_value_passthrough : forall v,
  from_value value_serializer v = Value v /\ joined (lit " ") v (to_text value_serializer v).
Proof. intros v. split; [reflexivity|apply value_str_joined]. Qed.

Example C16_ex :
  from_value string_serializer [lit "a b"] = Value (lit "a b") /\
  from_value string_serializer [lit "a"; lit "b"]
    = Error (lit "Unable to convert 'a b' to type 'string': Expected 1 subvalues, got 2").
Proof. split; vm_compute; reflexivity. Qed.

(** * C17  Vector conversion is element-wise and all-or-nothing *)

Theorem C17_vector_accept_iff : forall T v xs,
  from_value (vector_serializer T) v = Value xs <->
  Forall2 (fun s x => from_value T [s] = Value x) v xs.
Proof.
  intros T v xs. refine (iff_trans (vector_loop_value T _ v v [] xs) _). cbn [app]. split.
  - now intros (ys & -> & H).
  - intros H. now exists xs.
Qed.

(** The error is about the first failing element and carries its error text. *)
Theorem C17_vector_error_iff : forall T v e,
  no_nul (tname T) -> value_no_nul v ->
  (forall s e0, In s v -> from_value T [s] = Error e0 -> e0 <> [] /\ no_nul e0) ->
  (from_value (vector_serializer T) v = Error e <->
   exists pre s post e0, v = pre ++ s :: post /\
     (forall s', In s' pre -> exists x, from_value T [s'] = Value x) /\
     from_value T [s] = Error e0 /\
     conversion_error (lit "vector<" ++ tname T ++ lit ">") v (Some e0) e).
Proof.
  intros T v e Hn Hv He.
  assert (Hname : no_nul (lit "vector<" ++ tname T ++ lit ">")).
  { repeat apply no_nul_app; try easy; now apply no_nul_lit. }
  refine (iff_trans (vector_loop_error T _ v v [] e) _). split.
  - intros (pre & s & post & e0 & Hs & H1 & H2 & ->).
    exists pre, s, post, e0. split; [easy|]. split; [now apply Forall_forall|]. split; [easy|].
    destruct (He s e0) as [A B]; [rewrite Hs; apply in_elt|easy|].
    now apply generic_error_detail.
  - intros (pre & s & post & e0 & Hs & H1 & H2 & Hc).
    exists pre, s, post, e0. split; [easy|]. split; [now apply Forall_forall|]. split; [easy|].
    destruct (He s e0) as [A B]; [rewrite Hs; apply in_elt|easy|].
    pose proof (generic_error_detail _ _ _ Hname Hv A B) as Hc'.
    inversion Hc as [|rep d Hr E1 E2]; subst d. inversion Hc' as [|rep' d' Hr' E1' E2']; subst d'.
    now rewrite (joined_det _ _ _ _ Hr Hr').
Qed.

(** Printing. *)
Theorem C17_vector_text : forall T xs,
  exists r, joined (lit ", ") (map (to_text T) xs) r /\
    to_text (vector_serializer T) xs = lit "[" ++ r ++ lit "]".
Proof. exact vector_to_text. Qed.

(** If elements survive printing and parsing, passing the printed elements as
    sub-values gives the vector back. *)
Theorem C17_vector_elements_round_trip : forall T xs,
  (forall x, In x xs -> from_value T [to_text T x] = Value x) ->
  from_value (vector_serializer T) (map (to_text T) xs) = Value xs.
Proof.
  intros T xs H. apply C17_vector_accept_iff. induction xs as [|x xs IH]; cbn; [constructor|].
  constructor; [apply H; now left|]. apply IH. intros y Hy. apply H. now right.
Qed.

Definition ex_int : serializer := int_serializer (Platform true Long64) (Naming false true) CInt.

Example C17_ex :
  from_value (vector_serializer ex_int) [lit "1"; lit "-2"] = Value [1; -2]%Z /\
  to_text (vector_serializer ex_int) [1; -2]%Z = lit "[1, -2]" /\
  from_value (vector_serializer ex_int) [lit "1"; lit "x"; lit "y"]
    = Error (lit "Unable to convert '1 x y' to type 'vector<int>': Unable to convert 'x' to type 'int'") /\
  from_value (vector_serializer ex_int) [] = Value [].
Proof. repeat split; vm_compute; reflexivity. Qed.

(** * C18  Optional conversion accounts for the whole argument *)

(** Full statement (false): success means that the argument is empty, or a single empty
    text, or that the whole argument converts to the inner type. *)
Definition C18_full_statement : Prop :=
  forall T v o, from_value (optional_serializer T) v = Value o ->
    match o with
    | None => v = [] \/ v = [[]]
    | Some x => from_value T v = Value x
    end.

(** "(1 junk)" is accepted as 1. *)
Theorem C18_optional_whole_refuted :
  exists T v o e, from_value (optional_serializer T) v = Value (Some o) /\
    length v = 2 /\ from_value T v = Error e.
Proof.
  exists ex_int, [lit "1"; lit "junk"], 1%Z. eexists.
  split; [vm_compute; reflexivity|]. split; [easy|]. vm_compute. reflexivity.
Qed.

Theorem C18_full_statement_fails : ~ C18_full_statement.
Proof.
  intros H. destruct C18_optional_whole_refuted as (T & v & o & e & E & _ & E').
  specialize (H _ _ _ E). cbn in H. congruence.
Qed.

(** Missing for the full statement: arguments with two or more sub-values. *)
Theorem C18_optional_whole_partial : forall T v o,
  length v <= 1 ->
  (from_value (optional_serializer T) v = Value o <->
   match o with
   | None => v = [] \/ v = [[]]
   | Some x => v <> [] /\ v <> [[]] /\ from_value T v = Value x
   end).
Proof.
  intros T v o Hl. cbn [from_value optional_serializer].
  destruct v as [|[|c s] [|s' v]]; cbn in Hl; try lia.
  - destruct o; split; try easy; now left.
  - destruct o; split; try easy; now right.
  - match goal with |- context [match ?y with Value _ => _ | Error _ => _ end] =>
      destruct y as [x|e] eqn:E end.
    + destruct o as [y|]; split.
      * intros [= <-]. easy.
      * intros (_ & _ & H). now injection H as ->.
      * easy.
      * intros [H|H]; easy.
    + destruct o as [y|]; split; try easy.
      intros [H|H]; easy.
Qed.

(** What happens in general: the first sub-value alone decides. *)
Theorem C18_optional_exact : forall T v o,
  from_value (optional_serializer T) v = Value o <->
  match o with
  | None => v = [] \/ exists r, v = [] :: r
  | Some x => exists s r, v = s :: r /\ s <> [] /\ from_value T [s] = Value x
  end.
Proof.
  intros T v o. cbn [from_value optional_serializer]. destruct v as [|[|c s] r].
  - destruct o; split; try easy; [now intros (? & ? & ? & _)|now left].
  - destruct o; split; try easy.
    + now intros (s & r' & [= <- <-] & H & _).
    + right. now exists r.
  - match goal with |- context [match ?y with Value _ => _ | Error _ => _ end] =>
      destruct y as [x|e] eqn:E end.
    + destruct o as [y|]; split.
      * intros [= <-]. exists (c :: s), r. easy.
      * intros (s' & r' & [= <- <-] & _ & H).
        pose proof (eq_trans (eq_sym E) H) as X. now injection X as ->.
      * easy.
      * intros [H|(r' & H)]; easy.
    + destruct o as [y|]; split; try easy.
      * intros (s' & r' & [= <- <-] & _ & H).
        discriminate (eq_trans (eq_sym E) H).
      * intros [H|(r' & H)]; easy.
Qed.

(** Errors of the inner conversion are wrapped. *)
Theorem C18_optional_error_iff : forall T v e,
  no_nul (tname T) -> value_no_nul v ->
  (forall s e0, In s v -> from_value T [s] = Error e0 -> e0 <> [] /\ no_nul e0) ->
  (from_value (optional_serializer T) v = Error e <->
   exists s r e0, v = s :: r /\ s <> [] /\ from_value T [s] = Error e0 /\
     conversion_error (lit "optional<" ++ tname T ++ lit ">") v (Some e0) e).
Proof.
  intros T v e Hn Hv He.
  assert (Hname : no_nul (lit "optional<" ++ tname T ++ lit ">")).
  { repeat apply no_nul_app; try easy; now apply no_nul_lit. }
  rewrite optional_error_inv. split.
  - intros (s & r & e0 & Hs & H1 & H2 & ->). exists s, r, e0.
    split; [easy|]. split; [easy|]. split; [easy|].
    destruct (He s e0) as [A B]; [rewrite Hs; now left|easy|].
    now apply generic_error_detail.
  - intros (s & r & e0 & Hs & H1 & H2 & Hc). exists s, r, e0.
    split; [easy|]. split; [easy|]. split; [easy|].
    destruct (He s e0) as [A B]; [rewrite Hs; now left|easy|].
    pose proof (generic_error_detail _ _ _ Hname Hv A B) as Hc'.
    inversion Hc as [|rep d Hr E1 E2]; subst d. inversion Hc' as [|rep' d' Hr' E1' E2']; subst d'.
    cbn [tname optional_serializer].
    now rewrite (joined_det _ _ _ _ Hr Hr').
Qed.

(** Print/parse round trip: holds for the empty optional and for inner values with a
    non-empty text; the empty string inside an optional is lost. *)
Theorem C18_optional_round_trip : forall T o,
  (forall x, o = Some x -> from_value T [to_text T x] = Value x /\ to_text T x <> []) ->
  from_value (optional_serializer T) [to_text (optional_serializer T) o] = Value o.
Proof.
  intros T [x|] H.
  - destruct (H x eq_refl) as [H1 H2]. cbn [to_text optional_serializer from_value].
    destruct (to_text T x) as [|c s]; [easy|]. now rewrite H1.
  - reflexivity.
Qed.

Theorem C18_optional_empty_string_lost :
  from_value (optional_serializer string_serializer)
    [to_text (optional_serializer string_serializer) (Some [])] = Value None.
Proof. reflexivity. Qed.

Example C18_ex :
  from_value (optional_serializer ex_int) [lit "7"] = Value (Some 7%Z) /\
  from_value (optional_serializer ex_int) [lit ""] = Value None /\
  from_value (optional_serializer ex_int) [lit "x"]
    = Error (lit "Unable to convert 'x' to type 'optional<int>': Unable to convert 'x' to type 'int'").
Proof. repeat split; vm_compute; reflexivity. Qed.

(** * C19  Conversion errors name the offending value and type *)

(** Scalars: plain error for a single sub-value, sub-value count otherwise. *)
Theorem C19_scalar_error : forall p nm sg T v e,
  scalar p nm sg T -> value_no_nul v -> from_value T v = Error e ->
  (length v = 1 /\ conversion_error (tname T) v None e) \/
  (length v <> 1 /\ exists d, mismatch_detail 1 (length v) d /\ conversion_error (tname T) v (Some d) e).
Proof. exact scalar_error. Qed.

(** A scalar conversion fails on every value with zero or several sub-values. *)
Theorem C19_scalar_mismatch_fails : forall p nm sg T v,
  scalar p nm sg T -> length v <> 1 -> exists e, from_value T v = Error e.
Proof.
  intros p nm sg T v H Hl.
  destruct H; cbn; unfold arithmeticFromString, boolFromString, stringFromString;
    destruct v as [|s [|s' v]]; try easy; eauto.
Qed.

(** All built-in types including nested vectors and optionals. *)
Theorem C19_builtin_error : forall p nm sg T v e,
  builtin p nm sg T -> value_no_nul v -> from_value T v = Error e ->
  exists d, conversion_error (tname T) v d e.
Proof. intros p nm sg T v e H Hv E. now apply (builtin_error p nm sg T H v e Hv E). Qed.

(** The hypotheses of C17_vector_error_iff and C18_optional_error_iff hold for all
    built-in element types. *)
Theorem C19_builtin_errors_nonempty : forall p nm sg T v e,
  builtin p nm sg T -> value_no_nul v -> from_value T v = Error e ->
  no_nul (tname T) /\ e <> [] /\ no_nul e.
Proof.
  intros p nm sg T v e H Hv E. destruct (builtin_error p nm sg T H v e Hv E) as (A & B & _).
  split; [now apply (builtin_name p nm sg)|easy].
Qed.

(** With NUL bytes the value is shown up to the first NUL only. *)
Theorem C19_error_text_with_nul : forall name v d,
  exists rep rep' name' d',
    joined (lit " ") v rep /\ before_nul rep rep' /\ before_nul name name' /\ before_nul d d' /\
    createGenericError name v d =
      lit "Unable to convert '" ++ rep' ++ lit "' to type '" ++ name' ++ lit "'" ++
      match d with [] => [] | _ => lit ": " ++ d' end.
Proof. exact generic_error_nul. Qed.

(** Different integer types are shown under different names. *)
Theorem C19_type_names_distinct : forall nm t t',
  arithmeticName nm t = arithmeticName nm t' -> t = t'.
Proof. intros [[] []] t t'; destruct t, t'; intros E; try reflexivity; vm_compute in E; discriminate E. Qed.

(** The names themselves: the spelling of the type, or, if aliases are used, signedness and width
    for the types that int8_t, ..., uint64_t are. *)
Inductive spelled : ctype -> bytes -> Prop :=
| spelled_char : spelled CChar (lit "char")
| spelled_schar : spelled CSChar (lit "signed char")
| spelled_short : spelled CShort (lit "short")
| spelled_int : spelled CInt (lit "int")
| spelled_long : spelled CLong (lit "long")
| spelled_llong : spelled CLLong (lit "long long")
| spelled_uchar : spelled CUChar (lit "unsigned char")
| spelled_ushort : spelled CUShort (lit "unsigned short")
| spelled_uint : spelled CUInt (lit "unsigned int")
| spelled_ulong : spelled CULong (lit "unsigned long")
| spelled_ullong : spelled CULLong (lit "unsigned long long").

Definition width_type (nm : naming) (t : ctype) : Prop :=
  In t [CSChar; CUChar; CShort; CUShort; CInt; CUInt] \/
  In t (if int64_is_long nm then [CLong; CULong] else [CLLong; CULLong]).

Definition shows_width (p : platform) (t : ctype) (n : bytes) : Prop :=
  exists w ws, (0 < w)%Z /\ canonical w ws /\
    (n = lit "uint" ++ ws /\ (forall z, in_range p t z <-> (0 <= z < 2 ^ w)%Z) \/
     n = lit "int" ++ ws /\ (forall z, in_range p t z <-> (- 2 ^ (w - 1) <= z < 2 ^ (w - 1))%Z)).

Theorem C19_type_names : forall p nm t,
  (int64_is_long nm = true -> long_is p = Long64) ->
  (use_alias nm = true -> width_type nm t -> shows_width p t (arithmeticName nm t)) /\
  (use_alias nm = false \/ ~ width_type nm t -> spelled t (arithmeticName nm t)).
Proof.
  intros p [al lg] t P. cbn [int64_is_long use_alias] in P. unfold width_type. cbn [use_alias int64_is_long]. split.
  - intros -> W.
    assert (K : forall w, (0 < w)%Z -> canonical w (dec w)) by (intros w Hw; apply dec_canonical; lia).
    assert (Q : t <> CChar /\ (t = CLong \/ t = CULong -> lg = true) /\ (t = CLLong \/ t = CULLong -> lg = false)).
    { destruct W as [W|W].
      - cbn in W. intuition (subst; discriminate).
      - destruct lg; cbn in W; intuition (subst; discriminate). }
    destruct Q as (Q1 & Q2 & Q3).
    destruct t; try (now elim Q1);
      try (rewrite Q2 in * by tauto; specialize (P eq_refl)); try (rewrite Q3 in * by tauto);
      match goal with |- shows_width _ ?t _ =>
        exists (match t with CSChar | CUChar => 8 | CShort | CUShort => 16 | CInt | CUInt => 32 | _ => 64 end)%Z
      end; eexists; (split; [reflexivity|]); (split; [apply K; reflexivity|]);
      destruct p as [cs lw]; cbn [long_is] in P; try subst lw;
      (left; split; [reflexivity|]; intros z; unfold in_range; cbn; lia) ||
      (right; split; [reflexivity|]; intros z; unfold in_range; cbn; lia).
  - intros H. unfold arithmeticName. cbn [use_alias int64_is_long].
    destruct al; [destruct H as [H|H]; [discriminate H|]|destruct t; constructor].
    destruct t; try (elim H; left; cbn; tauto); destruct lg; try (elim H; right; cbn; tauto); constructor.
Qed.

Example C19_ex :
  builtin (Platform true Long64) (Naming true true) true
    (vector_serializer (optional_serializer (int_serializer (Platform true Long64) (Naming true true) CULong))) /\
  from_value (vector_serializer (optional_serializer (int_serializer (Platform true Long64) (Naming true true) CULong)))
    [lit ""; lit "-5"]
  = Error (lit "Unable to convert ' -5' to type 'vector<optional<uint64>>': Unable to convert '-5' to type 'optional<uint64>': Unable to convert '-5' to type 'uint64'").
Proof.
  split; [|vm_compute; reflexivity].
  apply builtin_vector, builtin_optional, builtin_scalar, scalar_int.
Qed.

(** * C48  A null pointer result prints as 'null' *)

(** The printers of all pointer types that can be returned: T* for a printable T, and
    char const*. *)
Inductive pointer_type : forall P : printer, (p_carrier P -> option (outcome bytes)) -> Prop :=
| pointer_to : forall Q, pointer_type (pointer_printer Q) (option_map (p_text Q))
| pointer_cstring : pointer_type cstring_printer (option_map (fun s => Done (c_str s))).

(** Full statement (false): null prints as "null", any other pointer as its target. *)
Definition C48_full_statement : Prop :=
  forall P target, pointer_type P target -> forall x,
    p_text P x = match target x with None => Done (lit "null") | Some t => t end.

(** char const* has its own printer, which does not test for null. *)
Theorem C48_null_pointer_refuted :
  p_text cstring_printer None = Fault NullDeref.
Proof. reflexivity. Qed.

Theorem C48_full_statement_fails : ~ C48_full_statement.
Proof. intros H. specialize (H _ _ pointer_cstring None). discriminate H. Qed.

(** Missing for the full statement: char const*.  [depth] pointers on top of a
    printable type: null at any level prints "null", otherwise the final object prints. *)
Fixpoint nested (P : printer) (depth : nat) : printer :=
  match depth with O => P | S d => pointer_printer (nested P d) end.

Theorem C48_null_pointer_partial : forall T d x,
  let P := pointer_printer (nested (printer_of T) d) in
  p_text P x =
    match x with
    | None => Done (lit "null")
    | Some y => p_text (nested (printer_of T) d) y
    end /\
  exists s, p_text P x = Done s.
Proof.
  intros T d x P. split; [destruct x; reflexivity|].
  subst P. revert x. induction d as [|d IH]; intros [y|]; cbn; eauto.
  apply IH.
Qed.

Theorem C48_cstring_nonnull : forall s,
  exists t, p_text cstring_printer (Some s) = Done t /\ before_nul s t.
Proof. intros s. exists (c_str s). split; [reflexivity|apply before_nul_c_str]. Qed.

Example C48_ex :
  p_text (pointer_printer (printer_of ex_int)) (Some 5%Z) = Done (lit "5") /\
  p_text (pointer_printer (pointer_printer (printer_of ex_int))) (Some None) = Done (lit "null").
Proof. split; vm_compute; reflexivity. Qed.

(** * Assumptions *)
Print Assumptions C15_bool_true_iff.
Print Assumptions C15_bool_false_iff.
Print Assumptions C15_bool_round_trip.
Print Assumptions C15_bool_error_iff.
Print Assumptions C16_string_accept_iff.
Print Assumptions C16_string_reject.
Print Assumptions C16_string_round_trip.
Print Assumptions C16_value_passthrough.
Print Assumptions C17_vector_accept_iff.
Print Assumptions C17_vector_error_iff.
Print Assumptions C17_vector_text.
Print Assumptions C17_vector_elements_round_trip.
Print Assumptions C18_optional_whole_refuted.
Print Assumptions C18_full_statement_fails.
Print Assumptions C18_optional_whole_partial.
Print Assumptions C18_optional_exact.
Print Assumptions C18_optional_error_iff.
Print Assumptions C18_optional_round_trip.
Print Assumptions C18_optional_empty_string_lost.
Print Assumptions C19_scalar_error.
Print Assumptions C19_scalar_mismatch_fails.
Print Assumptions C19_builtin_error.
Print Assumptions C19_builtin_errors_nonempty.
Print Assumptions C19_error_text_with_nul.
Print Assumptions C19_type_names_distinct.
Print Assumptions C19_type_names.
Print Assumptions C48_null_pointer_refuted.
Print Assumptions C48_full_statement_fails.
Print Assumptions C48_null_pointer_partial.
Print Assumptions C48_cstring_nonnull.
