(** The work done by coil::DefaultLexer (src/DefaultLexer.cpp): the functions of
    Lexer.v again, each statement now also counting what it does. *)
From Coq Require Import Ascii String NArith ZArith Bool PeanoNat List.
Import ListNotations.
From Verif Require Import Base Lexer.

(** What is counted:
    - [reads]: characters of the command string read, through
      StringView::operator[] or by sprintf,
    - [compares]: comparisons of a character with another one, in coil::find
      (include/coil/detail/Algorithm.h:6-13) or with '=',
    - [pushes]: elements put into a Vector (pushBack or initialiser list). *)
Record ticks := Ticks { reads : nat; compares : nat; pushes : nat }.

Definition plus_ticks (a b : ticks) : ticks :=
  Ticks (reads a + reads b) (compares a + compares b) (pushes a + pushes b).

(** A computation with its work; a fault keeps the work done before it. *)
Definition counted (A : Type) : Type := ticks * outcome A.

Definition free {A} (o : outcome A) : counted A := (Ticks 0 0 0, o).
Definition cdone {A} (a : A) : counted A := free (Done a).

Definition cbind {A B} (x : counted A) (k : A -> counted B) : counted B :=
  match snd x with
  | Done a => let y := k a in (plus_ticks (fst x) (fst y), snd y)
  | Fault f => (fst x, Fault f)
  end.

Notation "x <~ e ;; k" := (cbind e (fun x => k))
  (at level 61, e at next level, right associativity).

(** StringView::operator[], src/StringView.cpp:55-59: one character read. *)
Definition view_at_c (cmd : bytes) (v : view) (i : nat) : counted byte :=
  (Ticks 1 0 0, view_at cmd v i).

(** Vector::pushBack, include/coil/detail/Vector.h; counted apart from the
    computation of its argument. *)
Definition push_c {A} (l : list A) (a : A) : counted (list A) :=
  (Ticks 0 0 1, Done (l ++ [a])).

Section LexerCost.
  Variable sg : bool.
  Variable cfg : lexer_cfg.

  (** coil::find, include/coil/detail/Algorithm.h:6-13: compares elements until
      one matches. *)
  Fixpoint find_compares (l : bytes) (c : byte) : nat :=
    match l with
    | [] => 0
    | e :: r => if Z.eqb (char_val sg e) (Z.of_N (uchar c)) then 1
                else S (find_compares r c)
    end.

  Definition found_c (l : bytes) (c : byte) : counted bool :=
    (Ticks 0 (find_compares l c) 0, Done (found sg l c)).

  (** src/DefaultLexer.cpp:54-57, 59-62, 72-75, 64-70. *)
  Definition isGroupChar_c (c : byte) : counted bool := found_c (m_groupParentheses cfg) c.
  Definition isQuote_c (c : byte) : counted bool := found_c (m_quotes cfg) c.
  Definition isSpace_c (c : byte) : counted bool := found_c (m_spaceCharacters cfg) c.
  Definition isGroupSeparator_c (c : byte) : counted bool :=
    b <~ isSpace_c c ;;
    if (b : bool) then cdone true else found_c (m_groupSeparators cfg) c.

  (** c == '=', src/DefaultLexer.cpp:79. *)
  Definition isAssignment_c (c : byte) : counted bool :=
    (Ticks 0 1 0, Done (N.eqb (uchar c) 61)).

  (** src/DefaultLexer.cpp:77-89. *)
  Definition getCharType_c (c : byte) : counted char_type :=
    b <~ isAssignment_c c ;;
    if (b : bool) then cdone CAssignment else
    b <~ isSpace_c c ;;
    if (b : bool) then cdone CSpace else
    b <~ isGroupChar_c c ;;
    if (b : bool) then cdone CGroup else
    b <~ isQuote_c c ;;
    if (b : bool) then cdone CQuote else cdone CString.

  (** getCharType(str[i]) == t, src/DefaultLexer.cpp:140, 153, 169, 179. *)
  Definition hasType_c (t : char_type) (c : byte) : counted bool :=
    t' <~ getCharType_c c ;; cdone (char_type_eqb t' t).
  Definition lacksType_c (t : char_type) (c : byte) : counted bool :=
    t' <~ getCharType_c c ;; cdone (negb (char_type_eqb t' t)).

  (** while ((i < str.length()) && p(str[i])) i++; *)
  Fixpoint scan_c (p : byte -> counted bool) (cmd : bytes) (v : view) (fuel i : nat)
    : counted nat :=
    if i <? v_len v then
      match fuel with
      | O => free (Fault Diverges)
      | S fuel' =>
          c <~ view_at_c cmd v i ;;
          b <~ p c ;;
          if (b : bool) then scan_c p cmd v fuel' (S i) else cdone i
      end
    else cdone i.

  (** src/DefaultLexer.cpp:105-111; the second str[i] is that of :108. *)
  Fixpoint scan_item_c (cmd : bytes) (v : view) (fuel i : nat) (inQuotes : bool)
    : counted nat :=
    if i <? v_len v then
      match fuel with
      | O => free (Fault Diverges)
      | S fuel' =>
          c <~ view_at_c cmd v i ;;
          skip <~ (if inQuotes then cdone true
                   else s <~ isGroupSeparator_c c ;; cdone (negb s)) ;;
          if (skip : bool) then
            c' <~ view_at_c cmd v i ;;
            q <~ isQuote_c c' ;;
            scan_item_c cmd v fuel' (S i) (if (q : bool) then negb inQuotes else inQuotes)
          else cdone i
      end
    else cdone i.

  (** src/DefaultLexer.cpp:91-124. *)
  Fixpoint splitGroup_loop_c (cmd : bytes) (v : view) (fuel i : nat) (result : list view)
    : counted (list view) :=
    match fuel with
    | O => free (Fault Diverges)
    | S fuel' =>
        if i <? v_len v then
          i <~ scan_c isGroupSeparator_c cmd v (v_len v) i ;;
          if v_len v <=? i then cdone result
          else
            let stringBegin := i in
            i <~ scan_item_c cmd v (v_len v) i false ;;
            let stringEnd := i in
            cb <~ view_at_c cmd v stringBegin ;;
            qb <~ isQuote_c cb ;;
            quoted <~ (if (qb : bool) then
                         ce <~ view_at_c cmd v (stringEnd - 1) ;; isQuote_c ce
                       else cdone false) ;;
            let '(b, e) := (if quoted : bool
                            then (S stringBegin, stringEnd - 1)
                            else (stringBegin, stringEnd)) in
            len <~ free (size_sub e b) ;;
            sub <~ free (substr v b len) ;;
            result' <~ push_c result sub ;;
            splitGroup_loop_c cmd v fuel' (S i) result'
        else cdone result
    end.

  Definition splitGroup_c (cmd : bytes) (v : view) : counted (list view) :=
    splitGroup_loop_c cmd v (S (v_len v)) 0 [].

  (** src/DefaultLexer.cpp:126-132; the list initialisation at :131 puts one
      element into the vector. *)
  Definition createValue_c (cmd : bytes) (t : token) : counted vvalue :=
    match t_type t with
    | TGroupString => splitGroup_c cmd (t_value t)
    | _ => push_c [] (t_value t)
    end.

  (** src/DefaultLexer.cpp:153-158; the second str[i] is that of :155. *)
  Fixpoint scan_word_c (cmd : bytes) (v : view) (fuel i : nat) (type : token_type)
    : counted (nat * token_type) :=
    if i <? v_len v then
      match fuel with
      | O => free (Fault Diverges)
      | S fuel' =>
          c <~ view_at_c cmd v i ;;
          b <~ hasType_c CString c ;;
          if (b : bool) then
            c' <~ view_at_c cmd v i ;;
            s <~ isGroupSeparator_c c' ;;
            scan_word_c cmd v fuel' (S i) (if (s : bool) then TGroupString else type)
          else cdone (i, type)
      end
    else cdone (i, type).

  (** src/DefaultLexer.cpp:134-193. *)
  Fixpoint tokenize_loop_c (cmd : bytes) (v : view) (fuel i : nat) (tokens : list token)
    : counted (expected (list token)) :=
    match fuel with
    | O => free (Fault Diverges)
    | S fuel' =>
        if i <? v_len v then
          i <~ scan_c (hasType_c CSpace) cmd v (v_len v) i ;;
          if v_len v <=? i then cdone (Value tokens)
          else
            let tokenBegin := i in
            c <~ view_at_c cmd v i ;;
            t <~ getCharType_c c ;;
            match t with
            | CString =>
                r <~ scan_word_c cmd v (v_len v) (S i) TString ;;
                let '(i, type) := r in
                len <~ free (size_sub i tokenBegin) ;;
                sub <~ free (substr v tokenBegin len) ;;
                tokens' <~ push_c tokens (Token type sub) ;;
                tokenize_loop_c cmd v fuel' i tokens'
            | CAssignment =>
                sub <~ free (substr v i 1) ;;
                tokens' <~ push_c tokens (Token TAssignment sub) ;;
                tokenize_loop_c cmd v fuel' (S i) tokens'
            | CQuote =>
                i <~ scan_c (lacksType_c CQuote) cmd v (v_len v) (S i) ;;
                if v_len v <=? i then
                  q <~ view_at_c cmd v tokenBegin ;; cdone (Error (err_unclosed_quote q))
                else
                  len <~ free (size_sub i (tokenBegin + 1)) ;;
                  sub <~ free (substr v (tokenBegin + 1) len) ;;
                  tokens' <~ push_c tokens (Token TString sub) ;;
                  tokenize_loop_c cmd v fuel' (S i) tokens'
            | CGroup =>
                i <~ scan_c (lacksType_c CGroup) cmd v (v_len v) (S i) ;;
                if v_len v <=? i then
                  q <~ view_at_c cmd v tokenBegin ;; cdone (Error (err_unclosed_group q))
                else
                  len <~ free (size_sub i (tokenBegin + 1)) ;;
                  sub <~ free (substr v (tokenBegin + 1) len) ;;
                  tokens' <~ push_c tokens (Token TGroupString sub) ;;
                  tokenize_loop_c cmd v fuel' (S i) tokens'
            | CSpace => cdone (Error (lit "Internal error"))
            end
        else cdone (Value tokens)
    end.

  Definition tokenize_c (cmd : bytes) : counted (expected (list token)) :=
    tokenize_loop_c cmd (whole cmd) (S (length cmd)) 0 [].

  (** addCurrentTokens, src/DefaultLexer.cpp:234-250. *)
  Definition addCurrentTokens_c (cmd : bytes) (tokens : list token) (st : pstate)
    : counted pstate :=
    match primary st with
    | None => cdone st
    | Some p =>
        pt <~ free (token_at tokens p) ;;
        match secondary st with
        | Some s =>
            sec <~ free (token_at tokens s) ;;
            v <~ createValue_c cmd sec ;;
            named' <~ push_c (p_named st) (t_value pt, v) ;;
            cdone (PState None None (nextSecondary st) (p_args st) named')
        | None =>
            v <~ createValue_c cmd pt ;;
            args' <~ push_c (p_args st) v ;;
            cdone (PState None None (nextSecondary st) args' (p_named st))
        end
    end.

  (** One iteration of the loop, src/DefaultLexer.cpp:252-286. *)
  Definition arg_step_c (cmd : bytes) (tokens : list token) (i : nat) (t : token)
             (st : pstate) : counted (expected pstate) :=
    match t_type t with
    | TAssignment =>
        match primary st with
        | None => cdone (Error err_no_name)
        | Some _ =>
            if nextSecondary st then cdone (Error err_found_assign)
            else cdone (Value (PState (primary st) (secondary st) true (p_args st) (p_named st)))
        end
    | TString | TGroupString =>
        if nextSecondary st then
          match primary st with
          | None => cdone (Error (lit "Internal error"))
          | Some _ =>
              st <~ addCurrentTokens_c cmd tokens
                      (PState (primary st) (Some i) (nextSecondary st) (p_args st) (p_named st)) ;;
              cdone (Value (PState (primary st) (secondary st) false (p_args st) (p_named st)))
          end
        else
          st <~ match primary st with
                | Some _ => addCurrentTokens_c cmd tokens st
                | None => cdone st
                end ;;
          cdone (Value (PState (Some i) (secondary st) false (p_args st) (p_named st)))
    end.

  Fixpoint arg_loop_c (cmd : bytes) (tokens rest : list token) (i : nat) (st : pstate)
    : counted (expected pstate) :=
    match rest with
    | [] => cdone (Value st)
    | t :: rest' =>
        r <~ arg_step_c cmd tokens i t st ;;
        match r with
        | Error e => cdone (Error e)
        | Value st' => arg_loop_c cmd tokens rest' (S i) st'
        end
    end.

  (** The message of src/DefaultLexer.cpp:204: the two vsnprintf calls of
      coil::sprintf (src/Coil.cpp:606-622) each read the token up to its end or
      its first NUL; a NUL found is read as well. *)
  Definition printf_reads (t : bytes) : nat :=
    2 * Nat.min (length t) (S (length (c_str t))).

  (** parse(Vector<Token>), src/DefaultLexer.cpp:195-294. *)
  Definition parse_tokens_c (cmd : bytes) (tokens : list token)
    : counted (expected vinput) :=
    match tokens with
    | [] => cdone (Value (VInput (View 0 0) [] []))
    | first :: rest =>
        match t_type first with
        | TString =>
            r <~ arg_loop_c cmd tokens rest 1 (PState None None false [] []) ;;
            match r with
            | Error e => cdone (Error e)
            | Value st =>
                if nextSecondary st then cdone (Error err_found_end)
                else
                  st <~ addCurrentTokens_c cmd tokens st ;;
                  cdone (Value (VInput (t_value first) (p_args st) (p_named st)))
            end
        | _ =>
            (Ticks (printf_reads (view_bytes cmd (t_value first))) 0 0,
             Done (Error (err_first_token (view_bytes cmd (t_value first)))))
        end
    end.

  (** parse(StringView), src/DefaultLexer.cpp:45-52. *)
  Definition parse_c (cmd : bytes) : counted (expected vinput) :=
    r <~ tokenize_c cmd ;;
    match r with
    | Error e => cdone (Error e)
    | Value tokens => parse_tokens_c cmd tokens
    end.
End LexerCost.
