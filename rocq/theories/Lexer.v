(** Model of coil::DefaultLexer (src/DefaultLexer.cpp). *)
From Coq Require Import Ascii String NArith ZArith Bool PeanoNat List.
Import ListNotations.
From Verif Require Import Base.

(** Constructor arguments, src/DefaultLexer.cpp:40-43 and
    include/coil/detail/DefaultLexer.h:22, 43-46. *)
Record lexer_cfg := LexerCfg {
  m_groupParentheses : bytes;
  m_quotes : bytes;
  m_groupSeparators : bytes;
  m_spaceCharacters : bytes
}.

(** Default arguments, include/coil/detail/DefaultLexer.h:22. *)
Definition default_cfg : lexer_cfg :=
  LexerCfg (lit "()")
           [ascii_of_N 39; ascii_of_N 34]
           (lit ",;|")
           [ascii_of_N 32; ascii_of_N 9; ascii_of_N 10; ascii_of_N 13].

(** A StringView into the command string: offset and length instead of pointer
    and length (include/coil/detail/StringView.h:28-30).  The default
    StringView "" (a static literal) is represented by offset 0, length 0. *)
Record view := View { v_off : nat; v_len : nat }.

Definition whole (cmd : bytes) : view := View 0 (length cmd).

(** StringView::operator[], src/StringView.cpp:55-59: asserts the index, then
    reads; the read itself faults outside the command string. *)
Definition view_at (cmd : bytes) (v : view) (i : nat) : outcome byte :=
  _ <- assert_ (i <? v_len v) ;;
  match nth_error cmd (v_off v + i) with
  | Some c => Done c
  | None => Fault OutOfBounds
  end.

(** StringView::substr, src/StringView.cpp:35-41. *)
Definition substr (v : view) (offset len : nat) : outcome view :=
  _ <- assert_ (offset <=? v_len v) ;;
  _ <- assert_ (len <=? v_len v) ;;
  _ <- assert_ (offset + len <=? v_len v) ;;
  Done (View (v_off v + offset) len).

(** size_t subtraction of two indices into one string.  A negative difference
    wraps to a number close to 2^64, larger than any string; its only use here is
    as a length passed to substr, whose asserts then fail.  Simplification: the
    fault is raised at the subtraction. *)
Definition size_sub (a b : nat) : outcome nat :=
  if b <=? a then Done (a - b) else Fault AssertFailed.

Inductive char_type := CGroup | CQuote | CSpace | CString | CAssignment.
Inductive token_type := TString | TGroupString | TAssignment.

(** Token, src/DefaultLexer.cpp:32-38. *)
Record token := Token { t_type : token_type; t_value : view }.

(** Value and NamedValue (include/coil/detail/Value.h:15-43) and ExecutionInput
    (include/coil/detail/ExecutionInput.h:9-14), holding views. *)
Definition vvalue := list view.
Record vinput := VInput {
  vi_name : view;
  vi_args : list vvalue;
  vi_named : list (view * vvalue)
}.

(** The texts of the lexer's errors, src/DefaultLexer.cpp:173-289, the line beside each. *)
Definition quote_char : bytes := [ascii_of_N 39].
Definition err_unclosed_quote (c : byte) : bytes :=                   (* :173 *)
  lit "Token '" ++ [c] ++ lit "' doesn't have a corresponding opening/closing quote".
Definition err_unclosed_group (c : byte) : bytes :=                   (* :183 *)
  lit "Token '" ++ [c] ++ lit "' doesn't have a corresponding opening/closing token".
Definition err_first_token (t : bytes) : bytes :=                     (* :204 *)
  lit "Unexpected token '" ++ c_str t ++ lit "' at the beginning of the expression".
Definition err_no_name : bytes :=                                     (* :260 *)
  lit "Unexpected token '=': no name for the named argument is provided".
Definition err_found_assign : bytes :=                                (* :262 *)
  lit "Expected an argument value, found '='".
Definition err_found_end : bytes :=                                   (* :289 *)
  lit "Expected an argument value, found end of string".

(** Resolving a view to the bytes it denotes: what a user of the StringView,
    include/coil/detail/StringView.h:9-30, reads. *)
Definition view_bytes (cmd : bytes) (v : view) : bytes :=
  firstn (v_len v) (skipn (v_off v) cmd).

Section Lexer.
  (** [sg]: plain char is signed; [cfg]: lexer configuration. *)
  Variable sg : bool.
  Variable cfg : lexer_cfg.

  (** coil::find(begin, end, c) != end, include/coil/detail/Algorithm.h:6-13: a
      [char] element is compared with an [unsigned char] value, both promoted to
      int. *)
  Definition found (l : bytes) (c : byte) : bool :=
    existsb (fun e => Z.eqb (char_val sg e) (Z.of_N (uchar c))) l.

  (** src/DefaultLexer.cpp:54-57, 59-62, 72-75, 64-70. *)
  Definition isGroupChar (c : byte) : bool := found (m_groupParentheses cfg) c.
  Definition isQuote (c : byte) : bool := found (m_quotes cfg) c.
  Definition isSpace (c : byte) : bool := found (m_spaceCharacters cfg) c.
  Definition isGroupSeparator (c : byte) : bool :=
    if isSpace c then true else found (m_groupSeparators cfg) c.

  (** src/DefaultLexer.cpp:77-89. *)
  Definition getCharType (c : byte) : char_type :=
    if N.eqb (uchar c) 61 then CAssignment
    else if isSpace c then CSpace
    else if isGroupChar c then CGroup
    else if isQuote c then CQuote
    else CString.

  Definition char_type_eqb (a b : char_type) : bool :=
    match a, b with
    | CGroup, CGroup | CQuote, CQuote | CSpace, CSpace
    | CString, CString | CAssignment, CAssignment => true
    | _, _ => false
    end.

  (** while ((i < str.length()) && p(str[i])) i++; as at src/DefaultLexer.cpp:97, 106, 140, 153, 169
    and 179.   Fuel: one unit per step. *)
  Fixpoint scan (p : byte -> bool) (cmd : bytes) (v : view) (fuel i : nat)
    : outcome nat :=
    if i <? v_len v then
      match fuel with
      | O => Fault Diverges
      | S fuel' =>
          c <- view_at cmd v i ;;
          if p c then scan p cmd v fuel' (S i) else Done i
      end
    else Done i.

  (** src/DefaultLexer.cpp:106-111: the item loop of splitGroup. *)
  Fixpoint scan_item (cmd : bytes) (v : view) (fuel i : nat) (inQuotes : bool)
    : outcome nat :=
    if i <? v_len v then
      match fuel with
      | O => Fault Diverges
      | S fuel' =>
          c <- view_at cmd v i ;;
          if inQuotes || negb (isGroupSeparator c) then
            scan_item cmd v fuel' (S i) (if isQuote c then negb inQuotes else inQuotes)
          else Done i
      end
    else Done i.

  (** src/DefaultLexer.cpp:91-124. *)
  Fixpoint splitGroup_loop (cmd : bytes) (v : view) (fuel i : nat) (result : list view)
    : outcome (list view) :=
    match fuel with
    | O => Fault Diverges
    | S fuel' =>
        if i <? v_len v then
          i <- scan isGroupSeparator cmd v (v_len v) i ;;
          if v_len v <=? i then Done result                    (* break, :100-101 *)
          else
            let stringBegin := i in
            i <- scan_item cmd v (v_len v) i false ;;
            let stringEnd := i in
            cb <- view_at cmd v stringBegin ;;
            quoted <- (if isQuote cb then
                         ce <- view_at cmd v (stringEnd - 1) ;; Done (isQuote ce)
                       else Done false) ;;
            let '(b, e) := (if quoted : bool
                            then (S stringBegin, stringEnd - 1)
                            else (stringBegin, stringEnd)) in
            len <- size_sub e b ;;
            sub <- substr v b len ;;
            splitGroup_loop cmd v fuel' (S i) (result ++ [sub])
        else Done result
    end.

  Definition splitGroup (cmd : bytes) (v : view) : outcome (list view) :=
    splitGroup_loop cmd v (S (v_len v)) 0 [].

  (** src/DefaultLexer.cpp:126-132. *)
  Definition createValue (cmd : bytes) (t : token) : outcome vvalue :=
    match t_type t with
    | TGroupString => splitGroup cmd (t_value t)
    | _ => Done [t_value t]
    end.

  (** src/DefaultLexer.cpp:153-158: the word loop of tokenize; tracks the token
      type. *)
  Fixpoint scan_word (cmd : bytes) (v : view) (fuel i : nat) (type : token_type)
    : outcome (nat * token_type) :=
    if i <? v_len v then
      match fuel with
      | O => Fault Diverges
      | S fuel' =>
          c <- view_at cmd v i ;;
          if char_type_eqb (getCharType c) CString then
            scan_word cmd v fuel' (S i) (if isGroupSeparator c then TGroupString else type)
          else Done (i, type)
      end
    else Done (i, type).

  (** src/DefaultLexer.cpp:134-193.  The for-loop's i++ is the [S i] of the
      recursive calls; [i--] at :161 followed by that i++ is the plain [i]. *)
  Fixpoint tokenize_loop (cmd : bytes) (v : view) (fuel i : nat) (tokens : list token)
    : outcome (expected (list token)) :=
    match fuel with
    | O => Fault Diverges
    | S fuel' =>
        if i <? v_len v then
          i <- scan (fun c => char_type_eqb (getCharType c) CSpace) cmd v (v_len v) i ;;
          if v_len v <=? i then Done (Value tokens)           (* break, :143-144 *)
          else
            let tokenBegin := i in
            c <- view_at cmd v i ;;
            match getCharType c with
            | CString =>
                r <- scan_word cmd v (v_len v) (S i) TString ;;
                let '(i, type) := r in
                len <- size_sub i tokenBegin ;;
                sub <- substr v tokenBegin len ;;
                tokenize_loop cmd v fuel' i (tokens ++ [Token type sub])
            | CAssignment =>
                sub <- substr v i 1 ;;
                tokenize_loop cmd v fuel' (S i) (tokens ++ [Token TAssignment sub])
            | CQuote =>
                i <- scan (fun c => negb (char_type_eqb (getCharType c) CQuote)) cmd v (v_len v) (S i) ;;
                if v_len v <=? i then
                  q <- view_at cmd v tokenBegin ;; Done (Error (err_unclosed_quote q))
                else
                  len <- size_sub i (tokenBegin + 1) ;;
                  sub <- substr v (tokenBegin + 1) len ;;
                  tokenize_loop cmd v fuel' (S i) (tokens ++ [Token TString sub])
            | CGroup =>
                i <- scan (fun c => negb (char_type_eqb (getCharType c) CGroup)) cmd v (v_len v) (S i) ;;
                if v_len v <=? i then
                  q <- view_at cmd v tokenBegin ;; Done (Error (err_unclosed_group q))
                else
                  len <- size_sub i (tokenBegin + 1) ;;
                  sub <- substr v (tokenBegin + 1) len ;;
                  tokenize_loop cmd v fuel' (S i) (tokens ++ [Token TGroupString sub])
            | CSpace => Done (Error (lit "Internal error"))     (* default:, :187-188 *)
            end
        else Done (Value tokens)
    end.

  Definition tokenize (cmd : bytes) : outcome (expected (list token)) :=
    tokenize_loop cmd (whole cmd) (S (length cmd)) 0 [].

  (** State of the argument loop, src/DefaultLexer.cpp:208-232: the indices of the
      pending tokens, what the next string token is, and the input built so far. *)
  Record pstate := PState {
    primary : option nat;          (* argTokens.primaryTokenIndex *)
    secondary : option nat;        (* argTokens.secondaryTokenIndex *)
    nextSecondary : bool;          (* nextTokenType == SecondaryToken *)
    p_args : list vvalue;          (* input.arguments *)
    p_named : list (view * vvalue) (* input.namedArguments *)
  }.

  Definition token_at (tokens : list token) (i : nat) : outcome token :=
    match nth_error tokens i with
    | Some t => Done t
    | None => Fault OutOfBounds    (* Vector::operator[] assert, Vector.h:240-245 *)
    end.

  (** addCurrentTokens, src/DefaultLexer.cpp:234-250. *)
  Definition addCurrentTokens (cmd : bytes) (tokens : list token) (st : pstate)
    : outcome pstate :=
    match primary st with
    | None => Done st
    | Some p =>
        pt <- token_at tokens p ;;
        match secondary st with
        | Some s =>
            sec <- token_at tokens s ;;
            v <- createValue cmd sec ;;
            Done (PState None None (nextSecondary st) (p_args st)
                         (p_named st ++ [(t_value pt, v)]))
        | None =>
            v <- createValue cmd pt ;;
            Done (PState None None (nextSecondary st) (p_args st ++ [v]) (p_named st))
        end
    end.

  (** One iteration of the loop, src/DefaultLexer.cpp:252-286. *)
  Definition arg_step (cmd : bytes) (tokens : list token) (i : nat) (t : token)
             (st : pstate) : outcome (expected pstate) :=
    match t_type t with
    | TAssignment =>
        match primary st with
        | None => Done (Error err_no_name)
        | Some _ =>
            if nextSecondary st then Done (Error err_found_assign)
            else Done (Value (PState (primary st) (secondary st) true (p_args st) (p_named st)))
        end
    | TString | TGroupString =>
        if nextSecondary st then
          match primary st with
          | None => Done (Error (lit "Internal error"))
          | Some _ =>
              st <- addCurrentTokens cmd tokens
                      (PState (primary st) (Some i) (nextSecondary st) (p_args st) (p_named st)) ;;
              Done (Value (PState (primary st) (secondary st) false (p_args st) (p_named st)))
          end
        else
          st <- match primary st with
                | Some _ => addCurrentTokens cmd tokens st
                | None => Done st
                end ;;
          Done (Value (PState (Some i) (secondary st) false (p_args st) (p_named st)))
    end.

  (** The loop at src/DefaultLexer.cpp:252 from token index [i]; [rest] are the tokens from [i] on. *)
  Fixpoint arg_loop (cmd : bytes) (tokens rest : list token) (i : nat) (st : pstate)
    : outcome (expected pstate) :=
    match rest with
    | [] => Done (Value st)
    | t :: rest' =>
        r <- arg_step cmd tokens i t st ;;
        match r with
        | Error e => Done (Error e)
        | Value st' => arg_loop cmd tokens rest' (S i) st'
        end
    end.

  (** parse(Vector<Token>), src/DefaultLexer.cpp:195-294. *)
  Definition parse_tokens (cmd : bytes) (tokens : list token)
    : outcome (expected vinput) :=
    match tokens with
    | [] => Done (Value (VInput (View 0 0) [] []))
    | first :: rest =>
        match t_type first with
        | TString =>
            r <- arg_loop cmd tokens rest 1 (PState None None false [] []) ;;
            match r with
            | Error e => Done (Error e)
            | Value st =>
                if nextSecondary st then Done (Error err_found_end)
                else
                  st <- addCurrentTokens cmd tokens st ;;
                  Done (Value (VInput (t_value first) (p_args st) (p_named st)))
            end
        | _ => Done (Error (err_first_token (view_bytes cmd (t_value first))))
        end
    end.

  (** parse(StringView), src/DefaultLexer.cpp:45-52. *)
  Definition parse (cmd : bytes) : outcome (expected vinput) :=
    r <- tokenize cmd ;;
    match r with
    | Error e => Done (Error e)
    | Value tokens => parse_tokens cmd tokens
    end.
End Lexer.

(** The input a user of the lexer sees: views replaced by the bytes they denote.
    (name, positional arguments, named arguments): include/coil/detail/ExecutionInput.h:9-14 and
    Value.h:15-43. *)
Definition value := list bytes.
Record input := Input {
  i_name : bytes;
  i_args : list value;
  i_named : list (bytes * value)
}.

Definition resolve (cmd : bytes) (vi : vinput) : input :=
  Input (view_bytes cmd (vi_name vi))
        (map (map (view_bytes cmd)) (vi_args vi))
        (map (fun kv => (view_bytes cmd (fst kv), map (view_bytes cmd) (snd kv))) (vi_named vi)).

(** parse, src/DefaultLexer.cpp:45-52, followed by resolution; this is what Bindings::execute,
    src/Coil.cpp:250, works with. *)
Definition parse_input (sg : bool) (cfg : lexer_cfg) (cmd : bytes) : outcome (expected input) :=
  r <- parse sg cfg cmd ;;
  match r with
  | Error e => Done (Error e)
  | Value vi => Done (Value (resolve cmd vi))
  end.
