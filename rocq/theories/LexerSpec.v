(** Specification of coil's command syntax, written without the functions of the
    model [Lexer.v]: character classes, a grammar of tokens, a grammar of argument
    lists, the splitting of compound values, and a renderer. *)
From Coq Require Import Ascii String NArith ZArith Bool PeanoNat List.
Import ListNotations.
From Verif Require Import Base.

(** * Character classes *)

(** Which roles a byte has been given in the lexer configuration. *)
Record classes := Classes {
  sp : byte -> bool;     (* white space *)
  par : byte -> bool;    (* parentheses of compound values *)
  quo : byte -> bool;    (* quotes *)
  lsep : byte -> bool    (* separators inside compound values, besides white space *)
}.

Definition mem (c : byte) (l : bytes) : bool :=
  if in_dec ascii_dec c l then true else false.

Definition equals_sign : byte := "="%char.

(** A byte has one syntactic kind: '=' is fixed, then white space, parentheses and
    quotes in this order of precedence; everything else belongs to words. *)
Definition k_assign (c : byte) : bool := Ascii.eqb c equals_sign.
Definition k_space (C : classes) (c : byte) : bool := negb (k_assign c) && sp C c.
Definition k_paren (C : classes) (c : byte) : bool :=
  negb (k_assign c) && negb (sp C c) && par C c.
Definition k_quote (C : classes) (c : byte) : bool :=
  negb (k_assign c) && negb (sp C c) && negb (par C c) && quo C c.
Definition k_word (C : classes) (c : byte) : bool :=
  negb (k_assign c) && negb (sp C c) && negb (par C c) && negb (quo C c).

(** Inside compound values, white space and the configured separators separate. *)
Definition sep (C : classes) (c : byte) : bool := sp C c || lsep C c.

Definition all (p : byte -> bool) (s : bytes) : Prop := forall c, In c s -> p c = true.
Definition none (p : byte -> bool) (s : bytes) : Prop := forall c, In c s -> p c = false.

(** [s] is empty or starts with a byte that does not satisfy [p]. *)
Definition stops (p : byte -> bool) (s : bytes) : Prop :=
  match s with [] => True | c :: _ => p c = false end.

(** * Tokens *)

Inductive stok :=
| SStr (w : bytes)     (* a plain word or a quoted string *)
| SGrp (w : bytes)     (* text of a compound value *)
| SAssign.             (* '=' *)

(** Why the text cannot be divided into tokens: the opening character that has no
    closing partner. *)
Inductive lex_error := OpenQuote (c : byte) | OpenGroup (c : byte).

Definition cons_tok (t : stok) (r : list stok + lex_error) : list stok + lex_error :=
  match r with inl ts => inl (t :: ts) | inr e => inr e end.

Inductive lexes (C : classes) : bytes -> list stok + lex_error -> Prop :=
| lex_end : forall ws, all (k_space C) ws -> lexes C ws (inl [])
(* a maximal run of word characters; it is a compound value if a character other
   than the first is a separator *)
| lex_word : forall ws c w rest r,
    all (k_space C) ws -> k_word C c = true -> all (k_word C) w -> stops (k_word C) rest ->
    lexes C rest r ->
    lexes C (ws ++ c :: w ++ rest)
          (cons_tok (if existsb (sep C) w then SGrp (c :: w) else SStr (c :: w)) r)
| lex_assign : forall ws c rest r,
    all (k_space C) ws -> k_assign c = true ->
    lexes C rest r ->
    lexes C (ws ++ c :: rest) (cons_tok SAssign r)
| lex_quoted : forall ws q body q' rest r,
    all (k_space C) ws -> k_quote C q = true -> none (k_quote C) body -> k_quote C q' = true ->
    lexes C rest r ->
    lexes C (ws ++ q :: body ++ q' :: rest) (cons_tok (SStr body) r)
| lex_group : forall ws p body p' rest r,
    all (k_space C) ws -> k_paren C p = true -> none (k_paren C) body -> k_paren C p' = true ->
    lexes C rest r ->
    lexes C (ws ++ p :: body ++ p' :: rest) (cons_tok (SGrp body) r)
| lex_open_quote : forall ws q body,
    all (k_space C) ws -> k_quote C q = true -> none (k_quote C) body ->
    lexes C (ws ++ q :: body) (inr (OpenQuote q))
| lex_open_group : forall ws p body,
    all (k_space C) ws -> k_paren C p = true -> none (k_paren C) body ->
    lexes C (ws ++ p :: body) (inr (OpenGroup p)).

(** * Argument lists *)

(** Arguments as written: a value token, or a key and a value token. *)
Inductive sarg := APos (t : stok) | ANamed (key : bytes) (t : stok).

Inductive arg_error :=
| NoName        (* '=' without a key before it *)
| FoundAssign   (* '=' where a value is expected *)
| FoundEnd.     (* end of text where a value is expected *)

(** Text of a value token. *)
Inductive tok_text : stok -> bytes -> Prop :=
| tt_str : forall w, tok_text (SStr w) w
| tt_grp : forall w, tok_text (SGrp w) w.

Definition is_assign (t : stok) : bool := match t with SAssign => true | _ => false end.

Definition next_is_assign (ts : list stok) : bool :=
  match ts with SAssign :: _ => true | _ => false end.

(** [args_of ts args st]: the tokens [ts] after the command name are the complete
    arguments [args], followed by nothing ([st = None]) or by an error. *)
Inductive args_of : list stok -> list sarg -> option arg_error -> Prop :=
| args_nil : args_of [] [] None
| args_pos : forall t ts args st,
    is_assign t = false -> next_is_assign ts = false ->
    args_of ts args st ->
    args_of (t :: ts) (APos t :: args) st
| args_named : forall k w t ts args st,
    tok_text k w -> is_assign t = false ->
    args_of ts args st ->
    args_of (k :: SAssign :: t :: ts) (ANamed w t :: args) st
| args_no_name : forall ts, args_of (SAssign :: ts) [] (Some NoName)
| args_found_assign : forall k ts,
    is_assign k = false ->
    args_of (k :: SAssign :: SAssign :: ts) [] (Some FoundAssign)
| args_found_end : forall k,
    is_assign k = false -> args_of [k; SAssign] [] (Some FoundEnd).

(** * Compound values *)

Definition nquotes (C : classes) (s : bytes) : nat := length (filter (quo C) s).

(** An item of a compound value as written: it is not empty and a separator occurs
    in it only after an odd number of quotes (that is, inside quotes). *)
Definition raw_item (C : classes) (s : bytes) : Prop :=
  s <> [] /\
  forall p c r, s = p ++ c :: r -> sep C c = true -> Nat.odd (nquotes C p) = true.

(** The item ends at the end of the text or at a separator outside quotes. *)
Definition item_end (C : classes) (s rest : bytes) : Prop :=
  match rest with
  | [] => True
  | c :: _ => sep C c = true /\ Nat.odd (nquotes C s) = false
  end.

(** The text of an item: one pair of enclosing quotes is dropped.  A lone quote
    character has no text. *)
Inductive item_text (C : classes) : bytes -> bytes -> Prop :=
| it_quoted : forall q mid q',
    quo C q = true -> quo C q' = true -> item_text C (q :: mid ++ [q']) mid
| it_plain_first : forall c s, quo C c = false -> item_text C (c :: s) (c :: s)
| it_plain_last : forall s c, quo C c = false -> item_text C (s ++ [c]) (s ++ [c]).

Inductive splits (C : classes) : bytes -> list bytes -> Prop :=
| splits_nil : forall ws, all (sep C) ws -> splits C ws []
| splits_cons : forall ws s rest t items,
    all (sep C) ws -> raw_item C s -> item_end C s rest -> item_text C s t ->
    splits C rest items ->
    splits C (ws ++ s ++ rest) (t :: items).

(** The text contains a lone quote as an item. *)
Inductive lone_quote (C : classes) : bytes -> Prop :=
| lone_here : forall ws q rest,
    all (sep C) ws -> raw_item C [q] -> item_end C [q] rest -> quo C q = true ->
    lone_quote C (ws ++ q :: rest)
| lone_later : forall ws s rest,
    all (sep C) ws -> raw_item C s -> item_end C s rest ->
    lone_quote C rest ->
    lone_quote C (ws ++ s ++ rest).

(** Value denoted by a value token. *)
Inductive val_of (C : classes) : stok -> list bytes -> Prop :=
| vo_str : forall w, val_of C (SStr w) [w]
| vo_grp : forall w items, splits C w items -> val_of C (SGrp w) items.

(** * Parsed commands *)

Record sinput := SInput {
  s_name : bytes;
  s_args : list (list bytes);
  s_named : list (bytes * list bytes)
}.

(** Distribution of the arguments over positional and named ones, in order. *)
Inductive input_of (C : classes) : list sarg -> list (list bytes) -> list (bytes * list bytes) -> Prop :=
| io_nil : input_of C [] [] []
| io_pos : forall t v args pos named,
    val_of C t v -> input_of C args pos named ->
    input_of C (APos t :: args) (v :: pos) named
| io_named : forall k t v args pos named,
    val_of C t v -> input_of C args pos named ->
    input_of C (ANamed k t :: args) pos ((k, v) :: named).

(** Some argument written before the end or the first error is a compound value
    with a lone quote as an item. *)
Definition has_lone_quote (C : classes) (args : list sarg) : Prop :=
  exists w, lone_quote C w /\ (In (APos (SGrp w)) args \/ exists k, In (ANamed k (SGrp w)) args).

(** Documented error texts. *)
Inductive syntax_error :=
| ELex (e : lex_error)
| EFirst (t : stok)
| EArg (e : arg_error).

(** [command C s r]: the text [s] denotes the command [r] or is malformed. *)
Inductive command (C : classes) : bytes -> sinput + syntax_error -> Prop :=
| cmd_empty : forall s, lexes C s (inl []) -> command C s (inl (SInput [] [] []))
| cmd_lex_error : forall s e, lexes C s (inr e) -> command C s (inr (ELex e))
| cmd_first : forall s t ts,
    lexes C s (inl (t :: ts)) -> (forall w, t <> SStr w) -> command C s (inr (EFirst t))
| cmd_arg_error : forall s name ts args e,
    lexes C s (inl (SStr name :: ts)) -> args_of ts args (Some e) ->
    ~ has_lone_quote C args ->
    command C s (inr (EArg e))
| cmd_ok : forall s name ts args pos named,
    lexes C s (inl (SStr name :: ts)) -> args_of ts args None ->
    input_of C args pos named ->
    command C s (inl (SInput name pos named)).

(** The excluded texts: the lexer is asked for the value of a lone quote. *)
Inductive ill_command (C : classes) : bytes -> Prop :=
| ill_intro : forall s name ts args st,
    lexes C s (inl (SStr name :: ts)) -> args_of ts args st ->
    has_lone_quote C args -> ill_command C s.

(** Error messages. *)
Fixpoint before_nul (s : bytes) : bytes :=
  match s with
  | [] => []
  | c :: r => if ascii_dec c (ascii_of_nat 0) then [] else c :: before_nul r
  end.

Definition message (e : syntax_error) : bytes :=
  match e with
  | ELex (OpenQuote c) =>
      lit "Token '" ++ c :: lit "' doesn't have a corresponding opening/closing quote"
  | ELex (OpenGroup c) =>
      lit "Token '" ++ c :: lit "' doesn't have a corresponding opening/closing token"
  | EFirst t =>
      let w := match t with SStr w | SGrp w => w | SAssign => [equals_sign] end in
      lit "Unexpected token '" ++ before_nul w ++ lit "' at the beginning of the expression"
  | EArg NoName => lit "Unexpected token '=': no name for the named argument is provided"
  | EArg FoundAssign => lit "Expected an argument value, found '='"
  | EArg FoundEnd => lit "Expected an argument value, found end of string"
  end.

(** * Classes of a configuration *)

(** [char] values are compared as integers with [unsigned char] values, so on
    platforms where char is signed only ASCII characters can be recognised. *)
Definition recognised (sg : bool) (c : byte) : bool := negb sg || (nat_of_ascii c <? 128).

(** The classes configured by four lists of characters. *)
Definition classes_of (sg : bool) (parens quotes seps spaces : bytes) : classes :=
  Classes (fun c => recognised sg c && mem c spaces)
          (fun c => recognised sg c && mem c parens)
          (fun c => recognised sg c && mem c quotes)
          (fun c => recognised sg c && mem c seps).

(** * Texts as sequences of lexemes and white space *)

(** A lexeme is a token together with the characters used to write it. *)
Inductive lexeme :=
| LWord (c : byte) (w : bytes)                 (* bare word, first character [c] *)
| LAssign                                      (* = *)
| LQuoted (q : byte) (body : bytes) (q' : byte)
| LGroup (p : byte) (body : bytes) (p' : byte).

(** An unterminated lexeme at the end of the text. *)
Inductive open_end := Closed | OpenQ (q : byte) (body : bytes) | OpenG (p : byte) (body : bytes).

Definition lexeme_text (l : lexeme) : bytes :=
  match l with
  | LWord c w => c :: w
  | LAssign => [equals_sign]
  | LQuoted q body q' => q :: body ++ [q']
  | LGroup p body p' => p :: body ++ [p']
  end.

Definition open_text (o : open_end) : bytes :=
  match o with Closed => [] | OpenQ q body => q :: body | OpenG p body => p :: body end.

Definition lexeme_ok (C : classes) (l : lexeme) : Prop :=
  match l with
  | LWord c w => k_word C c = true /\ all (k_word C) w
  | LAssign => True
  | LQuoted q body q' => k_quote C q = true /\ none (k_quote C) body /\ k_quote C q' = true
  | LGroup p body p' => k_paren C p = true /\ none (k_paren C) body /\ k_paren C p' = true
  end.

Definition open_ok (C : classes) (o : open_end) : Prop :=
  match o with
  | Closed => True
  | OpenQ q body => k_quote C q = true /\ none (k_quote C) body
  | OpenG p body => k_paren C p = true /\ none (k_paren C) body
  end.

Definition lexeme_tok (C : classes) (l : lexeme) : stok :=
  match l with
  | LWord c w => if existsb (sep C) w then SGrp (c :: w) else SStr (c :: w)
  | LAssign => SAssign
  | LQuoted _ body _ => SStr body
  | LGroup _ body _ => SGrp body
  end.

Definition is_word (l : lexeme) : bool := match l with LWord _ _ => true | _ => false end.

(** [layout C prev ls o s]: [s] is the lexemes [ls] and the open end [o], in order,
    with white space anywhere before, between and after them; there must be some
    between two words.  [prev] tells whether the previous lexeme is a word. *)
Inductive layout (C : classes) : bool -> list lexeme -> open_end -> bytes -> Prop :=
| lay_end : forall prev ws o,
    all (k_space C) ws -> open_ok C o -> layout C prev [] o (ws ++ open_text o)
| lay_cons : forall prev ws l ls o s,
    all (k_space C) ws -> lexeme_ok C l ->
    (prev = true -> is_word l = true -> ws <> []) ->
    layout C (is_word l) ls o s ->
    layout C prev (l :: ls) o (ws ++ lexeme_text l ++ s).

(** * Writing a command *)

(** Ways of writing a single text: as a bare word or in quotes. *)
Inductive writes_text (C : classes) : bytes -> lexeme -> Prop :=
| wt_bare : forall c w, existsb (sep C) w = false -> writes_text C (c :: w) (LWord c w)
| wt_quoted : forall q body q', writes_text C body (LQuoted q body q').

(** Ways of writing the items of a compound value. *)
Inductive writes_item (C : classes) : bytes -> bytes -> Prop :=
| wi_bare : forall s, s <> [] -> none (sep C) s -> none (quo C) s -> writes_item C s s
| wi_quoted : forall q s q',
    quo C q = true -> sep C q = false -> quo C q' = true -> none (quo C) s ->
    writes_item C s (q :: s ++ [q']).

Inductive writes_items (C : classes) : list bytes -> bytes -> Prop :=
| ws_nil : forall ws, all (sep C) ws -> writes_items C [] ws
| ws_cons : forall ws item text items rest,
    all (sep C) ws -> writes_item C item text ->
    (match rest with [] => True | c :: _ => sep C c = true end) ->
    writes_items C items rest ->
    writes_items C (item :: items) (ws ++ text ++ rest).

(** Ways of writing an argument value: a single text, a group, or a bare word with
    separators in it. *)
Inductive writes_value (C : classes) : list bytes -> lexeme -> Prop :=
| wv_single : forall v l, writes_text C v l -> writes_value C [v] l
| wv_group : forall items p body p', writes_items C items body -> writes_value C items (LGroup p body p')
| wv_bare : forall items c w, existsb (sep C) w = true -> writes_items C items (c :: w) ->
                              writes_value C items (LWord c w).

(** An argument to be written: positional or named. *)
Inductive warg := WPos (v : list bytes) | WNamed (k : bytes) (v : list bytes).

Inductive writes_args (C : classes) : list warg -> list lexeme -> Prop :=
| wa_nil : writes_args C [] []
| wa_pos : forall v l args ls,
    writes_value C v l -> writes_args C args ls -> writes_args C (WPos v :: args) (l :: ls)
| wa_named : forall k v lk l args ls,
    writes_text C k lk -> writes_value C v l -> writes_args C args ls ->
    writes_args C (WNamed k v :: args) (lk :: LAssign :: l :: ls).

(** [writes C name args s]: [s] is a way of writing the call of [name] with the
    arguments [args] in this order. *)
Definition writes (C : classes) (name : bytes) (args : list warg) (s : bytes) : Prop :=
  exists ln ls, writes_text C name ln /\ writes_args C args ls /\
                layout C false (ln :: ls) Closed s.

Definition positional (args : list warg) : list (list bytes) :=
  flat_map (fun a => match a with WPos v => [v] | WNamed _ _ => [] end) args.
Definition named (args : list warg) : list (bytes * list bytes) :=
  flat_map (fun a => match a with WPos _ => [] | WNamed k v => [(k, v)] end) args.

(** * Fields: the items of a compound value without quotes *)

(** Maximal runs of bytes that are no separators. *)
Fixpoint fields (p : byte -> bool) (s : bytes) : list bytes :=
  match s with
  | [] => []
  | c :: r =>
      if p c then fields p r
      else match r with
           | [] => [[c]]
           | d :: _ => if p d then [c] :: fields p r
                       else match fields p r with
                            | f :: fs => (c :: f) :: fs
                            | [] => [[c]]
                            end
           end
  end.

(** * Character roles as configured *)

(** The classes a reader of the constructor's documentation expects: every listed
    character has its role, whatever its code. *)
Definition ideal_classes (parens quotes seps spaces : bytes) : classes :=
  Classes (fun c => mem c spaces) (fun c => mem c parens)
          (fun c => mem c quotes) (fun c => mem c seps).

Definition is_ascii (c : byte) : Prop := nat_of_ascii c < 128.

(** * A concrete renderer for the default configuration *)

Definition dquote : byte := ascii_of_nat 34.
Definition space : byte := ascii_of_nat 32.

Definition in_quotes (s : bytes) : bytes := dquote :: s ++ [dquote].

(** One sub-value is written in quotes; any other number of sub-values as a group
    of quoted items. *)
Definition render_value (v : list bytes) : bytes :=
  match v with
  | [x] => in_quotes x
  | _ => lit "(" ++ flat_map (fun x => in_quotes x ++ [space]) v ++ lit ")"
  end.

Definition render_arg (a : warg) : bytes :=
  match a with
  | WPos v => render_value v
  | WNamed k v => in_quotes k ++ [equals_sign] ++ render_value v
  end.

Definition render (name : bytes) (args : list warg) : bytes :=
  in_quotes name ++ flat_map (fun a => space :: render_arg a) args.

(** What can be rendered: no quote characters anywhere, and no parentheses inside
    compound values with a number of items other than one. *)
Definition no_quotes (s : bytes) : Prop := forall c, In c s -> c <> dquote /\ c <> ascii_of_nat 39.
Definition no_parens (s : bytes) : Prop := forall c, In c s -> c <> "("%char /\ c <> ")"%char.

Definition renderable_value (v : list bytes) : Prop :=
  Forall no_quotes v /\ (length v = 1 \/ Forall no_parens v).

Definition renderable_arg (a : warg) : Prop :=
  match a with
  | WPos v => renderable_value v
  | WNamed k v => no_quotes k /\ renderable_value v
  end.
