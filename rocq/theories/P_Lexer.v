(** Properties C01-C10: the command syntax. *)
From Coq Require Import Ascii String NArith ZArith Bool PeanoNat Lia List.
Import ListNotations.
From Verif Require Import Util Base Lexer LexerSpec LexerProofs LexerMeta LexerMore.

(** * C01  Parsing never reads outside the command string *)

(** Full statement (false): parse never faults. *)
Definition C01_full_statement : Prop :=
  forall sg cfg cmd, exists r, parse sg cfg cmd = Done r.

(** A group whose last item is a lone quote makes the lexer compute a substring of
    length -1. *)
Theorem C01_parse_safe_refuted :
  exists sg cfg cmd, parse sg cfg cmd = Fault AssertFailed.
Proof. exists true, default_cfg, (lit "f (')"). vm_compute. reflexivity. Qed.

Theorem C01_full_statement_fails : ~ C01_full_statement.
Proof.
  intros H. destruct C01_parse_safe_refuted as (sg & cfg & cmd & E).
  destruct (H sg cfg cmd) as (r & E'). rewrite E in E'. discriminate.
Qed.

(** Exactly these command strings fault, under any configuration. *)
Theorem C01_parse_faults_iff : forall sg cfg cmd,
  (exists f, parse sg cfg cmd = Fault f) <-> ill_command (cfg_classes sg cfg) cmd.
Proof. exact parse_fault_iff. Qed.

(** Every other command string is parsed to a result (value or error). *)
Theorem C01_parse_safe_partial : forall sg cfg cmd,
  ~ ill_command (cfg_classes sg cfg) cmd -> exists r, parse sg cfg cmd = Done r.
Proof.
  intros sg cfg cmd H. destruct (parse sg cfg cmd) as [r|f] eqn:E; [eauto|].
  exfalso. apply H. apply C01_parse_faults_iff. eauto.
Qed.

(** All views in a result are sub-ranges of the command string. *)
Theorem C01_parse_views_in_range : forall sg cfg cmd vi,
  parse sg cfg cmd = Done (Value vi) ->
  let inside := fun v => v_off v + v_len v <= length cmd in
  inside (vi_name vi) /\
  (forall a, In a (vi_args vi) -> forall v, In v a -> inside v) /\
  (forall k a, In (k, a) (vi_named vi) -> inside k /\ forall v, In v a -> inside v).
Proof. exact parse_views_inside. Qed.

(** Where the excluded lone quotes are, when no character is both quote and
    separator (as in the default configuration): exactly at the end of a group with
    an odd number of quotes, preceded by nothing or by a separator. *)
Theorem C01_lone_quote_iff : forall sg cfg w,
  (forall c, quo (cfg_classes sg cfg) c = true -> sep (cfg_classes sg cfg) c = false) ->
  (lone_quote (cfg_classes sg cfg) w <->
   exists w0 q, w = w0 ++ [q] /\ quo (cfg_classes sg cfg) q = true /\
     Nat.odd (nquotes (cfg_classes sg cfg) w) = true /\
     (w0 = [] \/ exists w1 c, w0 = w1 ++ [c] /\ sep (cfg_classes sg cfg) c = true)).
Proof. exact lone_quote_iff. Qed.

(** A command string without parentheses or without quotes never faults. *)
Theorem C01_no_quotes_safe : forall sg cfg cmd,
  (forall c, In c cmd -> quo (cfg_classes sg cfg) c = false) ->
  exists r, parse sg cfg cmd = Done r.
Proof. exact no_quotes_safe. Qed.

Example C01_ex_ill : ill_command (cfg_classes true default_cfg) (lit "f (a ')").
Proof. apply C01_parse_faults_iff. exists AssertFailed. vm_compute. reflexivity. Qed.

Example C01_ex_safe : ~ ill_command (cfg_classes true default_cfg) (lit "f 'x y' (a,'b c') k = (1 2)").
Proof. intros H. apply C01_parse_faults_iff in H. destruct H as (f & H). vm_compute in H. discriminate. Qed.

Example C01_ex_disjoint : forall c,
  quo (cfg_classes true default_cfg) c = true -> sep (cfg_classes true default_cfg) c = false.
Proof. intros [[] [] [] [] [] [] [] []]; vm_compute; congruence. Qed.

(** * C02  Tokenization follows the documented surface syntax *)

(** What a token is for a reader of the tokens. *)
Definition read_token (cmd : bytes) (t : token) : stok :=
  let w := view_bytes cmd (t_value t) in
  match t_type t with TString => SStr w | TGroupString => SGrp w | TAssignment => SAssign end.

Theorem C02_tokenize_accepts_iff : forall sg cfg cmd ts,
  (exists tokens, tokenize sg cfg cmd = Done (Value tokens) /\ map (read_token cmd) tokens = ts)
  <-> lexes (cfg_classes sg cfg) cmd (inl ts).
Proof. exact tokenize_accepts_iff. Qed.

Theorem C02_tokenize_rejects_iff : forall sg cfg cmd,
  (exists m, tokenize sg cfg cmd = Done (Error m)) <->
  (exists e, lexes (cfg_classes sg cfg) cmd (inr e)).
Proof. exact tokenize_rejects_iff. Qed.

(** Every text has a division (or an unclosed opening character), and only one. *)
Theorem C02_division_exists : forall sg cfg s, exists r, lexes (cfg_classes sg cfg) s r.
Proof. exact lexes_total. Qed.

Theorem C02_division_unique : forall sg cfg s r1 r2,
  lexes (cfg_classes sg cfg) s r1 -> lexes (cfg_classes sg cfg) s r2 -> r1 = r2.
Proof. exact lexes_det. Qed.

Theorem C02_tokenize_never_faults : forall sg cfg cmd, exists r, tokenize sg cfg cmd = Done r.
Proof. exact tokenize_never_faults. Qed.

Example C02_ex : lexes (cfg_classes true default_cfg) (lit "f a,b  k='x y'")
  (inl [SStr (lit "f"); SGrp (lit "a,b"); SStr (lit "k"); SAssign; SStr (lit "x y")]).
Proof. apply C02_tokenize_accepts_iff. vm_compute. eexists. split; reflexivity. Qed.

(** * C03  White space between tokens is insignificant *)

Theorem C03_white_space_insignificant : forall sg cfg lexemes o s s',
  layout (cfg_classes sg cfg) false lexemes o s ->
  layout (cfg_classes sg cfg) false lexemes o s' ->
  parse_input sg cfg s = parse_input sg cfg s'.
Proof. intros sg cfg lexemes o s s'. apply layout_parse. Qed.

(** Every text is a layout of some lexemes, so the theorem applies to all texts. *)
Theorem C03_every_text_is_a_layout : forall sg cfg s,
  exists lexemes o, layout (cfg_classes sg cfg) false lexemes o s.
Proof. exact layout_total. Qed.

Lemma ex_layout : forall ws1 ws2 ws3 : bytes,
  all (k_space (cfg_classes true default_cfg)) ws1 ->
  all (k_space (cfg_classes true default_cfg)) ws2 -> ws2 <> [] ->
  all (k_space (cfg_classes true default_cfg)) ws3 ->
  layout (cfg_classes true default_cfg) false
    [LWord "f"%char []; LWord "k"%char []; LAssign; LQuoted "'"%char (lit "a b") "'"%char] Closed
    (ws1 ++ lit "f" ++ ws2 ++ lit "k" ++ ws3 ++ lit "=" ++ ws3 ++ lit "'a b'" ++ ws1 ++ []).
Proof.
  intros ws1 ws2 ws3 H1 H2 H2' H3.
  assert (B : forall s, forallb (fun c => negb (k_quote (cfg_classes true default_cfg) c)) s = true ->
                        none (k_quote (cfg_classes true default_cfg)) s).
  { intros s Hs c Hc. rewrite forallb_forall in Hs. specialize (Hs c Hc).
    now apply negb_true_iff in Hs. }
  apply (lay_cons _ false ws1 (LWord "f"%char [])); [assumption|split; [reflexivity|intros c []]|discriminate|].
  apply (lay_cons _ true ws2 (LWord "k"%char [])); [assumption|split; [reflexivity|intros c []]|auto|].
  apply (lay_cons _ true ws3 LAssign); [assumption|exact I|discriminate|].
  apply (lay_cons _ false ws3 (LQuoted "'"%char (lit "a b") "'"%char)); [assumption| |discriminate|].
  - split; [reflexivity|]. split; [|reflexivity]. apply B. reflexivity.
  - apply lay_end; [assumption|exact I].
Qed.

Example C03_ex :
  parse_input true default_cfg (lit "f k='a b'") =
  parse_input true default_cfg (lit "  f   k  =  'a b'  ").
Proof.
  assert (B : forall s, forallb (k_space (cfg_classes true default_cfg)) s = true ->
                        all (k_space (cfg_classes true default_cfg)) s).
  { intros s Hs c Hc. rewrite forallb_forall in Hs. now apply Hs. }
  pose proof (ex_layout [] (lit " ") []) as L1.
  pose proof (ex_layout (lit "  ") (lit "   ") (lit "  ")) as L2.
  eapply C03_white_space_insignificant; [apply L1|apply L2]; try discriminate; apply B; reflexivity.
Qed.

(** * C04  Rendering a call and parsing it gives the call back *)

Theorem C04_parse_written : forall sg cfg name args s,
  writes (cfg_classes sg cfg) name args s ->
  parse_input sg cfg s = Done (Value (Input name (positional args) (named args))).
Proof. exact writes_parse. Qed.

(** For the default configuration, with one fixed way of writing. *)
Theorem C04_render_parse : forall sg name args,
  no_quotes name -> Forall renderable_arg args ->
  parse_input sg default_cfg (render name args) =
    Done (Value (Input name (positional args) (named args))).
Proof. exact render_parse. Qed.

(** Hence different calls are rendered differently. *)
Theorem C04_render_injective : forall name args name' args',
  no_quotes name -> Forall renderable_arg args ->
  no_quotes name' -> Forall renderable_arg args' ->
  render name args = render name' args' ->
  name = name' /\ positional args = positional args' /\ named args = named args'.
Proof.
  intros name args name' args' H1 H2 H3 H4 E.
  pose proof (C04_render_parse true name args H1 H2) as P.
  rewrite E, (C04_render_parse true name' args' H3 H4) in P.
  injection P as -> -> ->. auto.
Qed.

Example C04_ex : no_quotes (lit "f x") /\
  Forall renderable_arg [WPos [lit "1 2"]; WNamed (lit "k=") [lit "a"; []; lit "b,c"]; WPos []].
Proof.
  assert (Q : forall s, forallb (fun c => negb (Ascii.eqb c dquote) && negb (Ascii.eqb c (ascii_of_nat 39))) s = true -> no_quotes s).
  { intros s H c Hc. rewrite forallb_forall in H. specialize (H c Hc).
    apply andb_prop in H. destruct H as [A B].
    split; intros ->; rewrite Ascii.eqb_refl in *; discriminate. }
  assert (P : forall s, forallb (fun c => negb (Ascii.eqb c "("%char) && negb (Ascii.eqb c ")"%char)) s = true -> no_parens s).
  { intros s H c Hc. rewrite forallb_forall in H. specialize (H c Hc).
    apply andb_prop in H. destruct H as [A B].
    split; intros ->; rewrite Ascii.eqb_refl in *; discriminate. }
  split; [apply Q; reflexivity|].
  constructor; [|constructor; [|constructor; [|constructor]]].
  - split; [repeat (apply Forall_cons; [apply Q; reflexivity|]); apply Forall_nil|left; reflexivity].
  - split; [apply Q; reflexivity|]. split; [repeat (apply Forall_cons; [apply Q; reflexivity|]); apply Forall_nil|].
    right. repeat (apply Forall_cons; [apply P; reflexivity|]); apply Forall_nil.
  - split; [constructor|right; constructor].
Qed.

(** * C05  Quoted text is passed through verbatim *)

(** [s1] is any written call, [s2] any written further arguments. *)
Theorem C05_quoted_argument_verbatim : forall sg cfg name pre post s1 l2 s2 q body q',
  let C := cfg_classes sg cfg in
  writes C name pre s1 -> writes_args C post l2 -> layout C false l2 Closed s2 ->
  k_quote C q = true -> none (k_quote C) body -> k_quote C q' = true ->
  parse_input sg cfg (s1 ++ q :: body ++ q' :: s2) =
    Done (Value (Input name (positional pre ++ [body] :: positional post) (named pre ++ named post))).
Proof. exact quoted_argument. Qed.

Theorem C05_quoted_name_verbatim : forall sg cfg l2 s2 args q body q' ws,
  let C := cfg_classes sg cfg in
  all (k_space C) ws ->
  writes_args C args l2 -> layout C false l2 Closed s2 ->
  k_quote C q = true -> none (k_quote C) body -> k_quote C q' = true ->
  parse_input sg cfg (ws ++ q :: body ++ q' :: s2) =
    Done (Value (Input body (positional args) (named args))).
Proof. exact quoted_name. Qed.

(** The value of a named argument: [key=] is written right before the quote. *)
Theorem C05_quoted_named_verbatim : forall sg cfg name pre post key ln lpre lk s1 l2 s2 q body q',
  let C := cfg_classes sg cfg in
  writes_text C name ln -> writes_args C pre lpre -> writes_text C key lk ->
  layout C false (ln :: lpre ++ [lk]) Closed s1 ->
  writes_args C post l2 -> layout C false l2 Closed s2 ->
  k_quote C q = true -> none (k_quote C) body -> k_quote C q' = true ->
  parse_input sg cfg (s1 ++ equals_sign :: q :: body ++ q' :: s2) =
    Done (Value (Input name (positional pre ++ positional post) (named pre ++ (key, [body]) :: named post))).
Proof. exact quoted_named. Qed.

(** The default configuration: any bytes other than the two quote characters. *)
Theorem C05_default_verbatim : forall sg body,
  no_quotes body ->
  parse_input sg default_cfg (lit "f '" ++ body ++ lit "'") = Done (Value (Input (lit "f") [[body]] [])) /\
  parse_input sg default_cfg (lit "f k='" ++ body ++ lit "'") = Done (Value (Input (lit "f") [] [(lit "k", [body])])) /\
  parse_input sg default_cfg (lit "'" ++ body ++ lit "' x") = Done (Value (Input body [[lit "x"]] [])).
Proof. exact default_verbatim. Qed.

Example C05_ex : no_quotes (lit "a = (b, c) ;" ++ [ascii_of_nat 0; ascii_of_nat 200]).
Proof.
  intros c Hc. cbn in Hc.
  repeat (destruct Hc as [<-|Hc]; [split; discriminate|]). destruct Hc.
Qed.

(** * C06  Order of arguments *)

Theorem C06_only_relative_order_matters : forall sg cfg name args args' s s',
  writes (cfg_classes sg cfg) name args s -> writes (cfg_classes sg cfg) name args' s' ->
  positional args = positional args' -> named args = named args' ->
  parse_input sg cfg s = parse_input sg cfg s'.
Proof.
  intros sg cfg name args args' s s' H H' Ep En.
  rewrite (writes_parse _ _ _ _ _ H), (writes_parse _ _ _ _ _ H'). now rewrite Ep, En.
Qed.

(** Also in texts that do not parse: moving [key=value] over a positional argument
    changes nothing, whatever follows. *)
Theorem C06_named_argument_moves : forall sg cfg s s' name pre a1 k kt v p post,
  let C := cfg_classes sg cfg in
  args_of pre a1 None -> tok_text kt k -> is_assign v = false -> is_assign p = false ->
  next_is_assign post = false ->
  lexes C s (inl (SStr name :: pre ++ kt :: SAssign :: v :: p :: post)) ->
  lexes C s' (inl (SStr name :: pre ++ p :: kt :: SAssign :: v :: post)) ->
  parse_input sg cfg s = parse_input sg cfg s'.
Proof. exact swap_parse. Qed.

Example C06_ex :
  lexes (cfg_classes true default_cfg) (lit "f 1 k=2 3 4=")
    (inl (SStr (lit "f") :: [SStr (lit "1")] ++ SStr (lit "k") :: SAssign :: SStr (lit "2") :: SStr (lit "3")
          :: [SStr (lit "4"); SAssign])) /\
  lexes (cfg_classes true default_cfg) (lit "f 1 3 k=2 4=")
    (inl (SStr (lit "f") :: [SStr (lit "1")] ++ SStr (lit "3") :: SStr (lit "k") :: SAssign :: SStr (lit "2")
          :: [SStr (lit "4"); SAssign])).
Proof. split; apply C02_tokenize_accepts_iff; vm_compute; eexists; split; reflexivity. Qed.

(** * C07  Syntax errors *)

Theorem C07_error_iff_malformed : forall sg cfg cmd m,
  parse_input sg cfg cmd = Done (Error m) <->
  exists e, command (cfg_classes sg cfg) cmd (inr e) /\ m = message e.
Proof. exact parse_input_error_iff. Qed.

Theorem C07_value_iff_wellformed : forall sg cfg cmd name pos nam,
  parse_input sg cfg cmd = Done (Value (Input name pos nam)) <->
  command (cfg_classes sg cfg) cmd (inl (SInput name pos nam)).
Proof. intros sg cfg cmd name pos nam. apply (parse_input_ok_iff sg cfg cmd (SInput name pos nam)). Qed.

(** The grammar of commands and of errors is unambiguous, and covers every text
    but the ill ones of C01. *)
Theorem C07_diagnosis_unique : forall sg cfg cmd r1 r2,
  command (cfg_classes sg cfg) cmd r1 -> command (cfg_classes sg cfg) cmd r2 -> r1 = r2.
Proof. exact command_det. Qed.

Theorem C07_diagnosis_total : forall sg cfg cmd,
  (exists r, command (cfg_classes sg cfg) cmd r) \/ ill_command (cfg_classes sg cfg) cmd.
Proof. exact command_total. Qed.

Theorem C07_diagnosis_exclusive : forall sg cfg cmd r,
  command (cfg_classes sg cfg) cmd r -> ~ ill_command (cfg_classes sg cfg) cmd.
Proof. exact command_not_ill. Qed.

Example C07_ex1 : command (cfg_classes true default_cfg) (lit "f 'a") (inr (ELex (OpenQuote "'"%char))).
Proof.
  assert (P : parse_input true default_cfg (lit "f 'a") = Done (Error (message (ELex (OpenQuote "'"%char)))))
    by (vm_compute; reflexivity).
  apply C07_error_iff_malformed in P. destruct P as (e & H & E).
  destruct e as [[c|c]|t|[]]; try (vm_compute in E; discriminate).
  vm_compute in E. injection E as <-. exact H.
Qed.
Example C07_ex2 : parse_input true default_cfg (lit "f a= =b") = Done (Error (message (EArg FoundAssign))).
Proof. vm_compute. reflexivity. Qed.
Example C07_ex3 : parse_input true default_cfg (lit "f a=") = Done (Error (message (EArg FoundEnd))).
Proof. vm_compute. reflexivity. Qed.
Example C07_ex4 : parse_input true default_cfg (lit "f =a") = Done (Error (message (EArg NoName))).
Proof. vm_compute. reflexivity. Qed.
Example C07_ex5 : parse_input true default_cfg (lit "a,b c") = Done (Error (message (EFirst (SGrp (lit "a,b"))))).
Proof. vm_compute. reflexivity. Qed.

(** * C08  Compound arguments *)

(** A group given as the only argument. *)
Theorem C08_group_split_iff : forall sg cfg name ln c ws p body p' items,
  let C := cfg_classes sg cfg in
  writes_text C name ln -> lexeme_ok C ln -> k_space C c = true -> all (k_space C) ws ->
  k_paren C p = true -> none (k_paren C) body -> k_paren C p' = true ->
  (parse_input sg cfg (lexeme_text ln ++ c :: ws ++ p :: body ++ [p']) =
     Done (Value (Input name [items] [])) <-> splits C body items).
Proof. exact group_split. Qed.

Theorem C08_split_unique : forall sg cfg w a b,
  splits (cfg_classes sg cfg) w a -> splits (cfg_classes sg cfg) w b -> a = b.
Proof. exact splits_det. Qed.

Theorem C08_split_exists_unless_lone_quote : forall sg cfg w,
  (exists items, splits (cfg_classes sg cfg) w items) \/ lone_quote (cfg_classes sg cfg) w.
Proof. exact splits_total. Qed.

Theorem C08_split_or_lone_exclusive : forall sg cfg w a,
  splits (cfg_classes sg cfg) w a -> ~ lone_quote (cfg_classes sg cfg) w.
Proof. intros sg cfg w a H H'. eapply splits_not_lone; eassumption. Qed.

(** Without quotes: the maximal runs of non-separators. *)
Theorem C08_quote_free_fields : forall sg cfg w items,
  none (quo (cfg_classes sg cfg)) w ->
  (splits (cfg_classes sg cfg) w items <-> items = fields (sep (cfg_classes sg cfg)) w).
Proof.
  intros sg cfg w items H. split.
  - intros S. eapply splits_fields; eassumption.
  - intros ->. now apply fields_splits.
Qed.

(** Nothing but separators is lost, no item is empty, no item holds a separator. *)
Theorem C08_fields_lossless : forall p w,
  concat (fields p w) = filter (fun c => negb (p c)) w /\
  Forall (fun f => f <> [] /\ forall c, In c f -> p c = false) (fields p w).
Proof. intros p w. split; [apply fields_concat|apply fields_nonempty]. Qed.

(** With quotes: only quotes and separators are lost, and an empty item needs a
    quote in the text. *)
Theorem C08_only_quotes_and_separators_lost : forall sg cfg w items,
  let C := cfg_classes sg cfg in
  splits C w items ->
  filter (fun c => negb (sep C c) && negb (quo C c)) (concat items) =
  filter (fun c => negb (sep C c) && negb (quo C c)) w.
Proof. exact splits_lossless. Qed.

Theorem C08_empty_item_was_quoted : forall sg cfg w items,
  let C := cfg_classes sg cfg in
  splits C w items -> In [] items ->
  exists a q q' b, w = a ++ q :: q' :: b /\ quo C q = true /\ quo C q' = true.
Proof. exact splits_empty_item. Qed.

Example C08_ex : parse_input true default_cfg (lit "f (a,  'b c';'' |x'y z'w)") =
  Done (Value (Input (lit "f") [[lit "a"; lit "b c"; []; lit "x'y z'w"]] [])).
Proof. vm_compute. reflexivity. Qed.

(** * C09  Which words are compound *)

(** The claim: the word is split iff it contains a separator; split words do not
    arrive as themselves, because separators never survive splitting. *)
Theorem C09_word_compound_refuted : exists sg cfg word,
  existsb (sep (cfg_classes sg cfg)) word = true /\
  all (k_word (cfg_classes sg cfg)) word /\
  parse_input sg cfg (lit "f " ++ word) = Done (Value (Input (lit "f") [[word]] [])) /\
  splits (cfg_classes sg cfg) word [lit "a"].
Proof.
  exists true, default_cfg, (lit ",a").
  split; [reflexivity|]. split; [intros c [<-|[<-|[]]]; reflexivity|].
  split; [vm_compute; reflexivity|].
  change [lit "a"] with (fields (sep (cfg_classes true default_cfg)) (lit ",a")).
  apply fields_splits. intros c [<-|[<-|[]]]; reflexivity.
Qed.

(** Exact criterion: a separator after the first character. *)
Theorem C09_word_compound_partial : forall sg cfg name ln b ws c w items,
  let C := cfg_classes sg cfg in
  writes_text C name ln -> lexeme_ok C ln -> k_space C b = true -> all (k_space C) ws ->
  k_word C c = true -> all (k_word C) w ->
  (parse_input sg cfg (lexeme_text ln ++ b :: ws ++ c :: w) = Done (Value (Input name [items] [])) <->
   if existsb (sep C) w then splits C (c :: w) items else items = [c :: w]).
Proof. exact word_compound. Qed.

(** In particular the claim holds for words that do not start with a separator. *)
Theorem C09_word_compound_not_leading_partial : forall sg cfg name ln b ws c w,
  let C := cfg_classes sg cfg in
  writes_text C name ln -> lexeme_ok C ln -> k_space C b = true -> all (k_space C) ws ->
  k_word C c = true -> all (k_word C) w -> sep C c = false -> none (quo C) (c :: w) ->
  parse_input sg cfg (lexeme_text ln ++ b :: ws ++ c :: w) =
    Done (Value (Input name [fields (sep C) (c :: w)] [])).
Proof. exact word_compound_fields. Qed.

Example C09_ex : parse_input true default_cfg (lit "f 1,2;3| x") =
  Done (Value (Input (lit "f") [[lit "1"; lit "2"; lit "3"]; [lit "x"]] [])).
Proof. vm_compute. reflexivity. Qed.

(** * C10  Configured special characters *)

Definition guillemet : byte := ascii_of_nat 171.
Definition guillemet_cfg : lexer_cfg := LexerCfg (lit "()") [guillemet] (lit ",") (lit " ").

(** Full statement: parsing follows the classes as configured.  With signed char
    it fails for a configured character above 127: the quotes are not recognised. *)
Theorem C10_configured_characters_refuted : exists cfg cmd i,
  command (ideal cfg) cmd (inl i) /\
  parse_input true cfg cmd <> Done (Value (Input (s_name i) (s_args i) (s_named i))).
Proof. exact configured_characters_refuted. Qed.

Theorem C10_configured_characters_partial : forall sg cfg,
  (sg = false \/
   Forall is_ascii (m_groupParentheses cfg ++ m_quotes cfg ++
                    m_groupSeparators cfg ++ m_spaceCharacters cfg)) ->
  forall cmd,
    (forall i, parse_input sg cfg cmd = Done (Value (Input (s_name i) (s_args i) (s_named i))) <->
               command (ideal cfg) cmd (inl i)) /\
    (forall m, parse_input sg cfg cmd = Done (Error m) <->
               exists e, command (ideal cfg) cmd (inr e) /\ m = message e).
Proof.
  intros sg cfg H cmd. split.
  - intros i. rewrite <- (ideal_command sg cfg H). apply (parse_input_ok_iff sg cfg cmd i).
  - intros m. rewrite parse_input_error_iff. split; intros (e & He & ->); exists e;
      (split; [|reflexivity]); now apply (ideal_command sg cfg H).
Qed.

Example C10_ex_default : Forall is_ascii (m_groupParentheses default_cfg ++ m_quotes default_cfg ++
                    m_groupSeparators default_cfg ++ m_spaceCharacters default_cfg).
Proof. repeat constructor. Qed.
Example C10_ex_unsigned : parse_input false guillemet_cfg (lit "f " ++ guillemet :: lit "a b" ++ [guillemet]) =
  Done (Value (Input (lit "f") [[lit "a b"]] [])).
Proof. vm_compute. reflexivity. Qed.

(** * Assumptions *)
Print Assumptions C01_parse_safe_refuted.
Print Assumptions C01_full_statement_fails.
Print Assumptions C01_parse_faults_iff.
Print Assumptions C01_parse_safe_partial.
Print Assumptions C01_parse_views_in_range.
Print Assumptions C01_lone_quote_iff.
Print Assumptions C01_no_quotes_safe.
Print Assumptions C02_tokenize_accepts_iff.
Print Assumptions C02_tokenize_rejects_iff.
Print Assumptions C02_division_exists.
Print Assumptions C02_division_unique.
Print Assumptions C02_tokenize_never_faults.
Print Assumptions C03_white_space_insignificant.
Print Assumptions C03_every_text_is_a_layout.
Print Assumptions C04_parse_written.
Print Assumptions C04_render_parse.
Print Assumptions C04_render_injective.
Print Assumptions C05_quoted_argument_verbatim.
Print Assumptions C05_quoted_name_verbatim.
Print Assumptions C05_quoted_named_verbatim.
Print Assumptions C05_default_verbatim.
Print Assumptions C06_only_relative_order_matters.
Print Assumptions C06_named_argument_moves.
Print Assumptions C07_error_iff_malformed.
Print Assumptions C07_value_iff_wellformed.
Print Assumptions C07_diagnosis_unique.
Print Assumptions C07_diagnosis_total.
Print Assumptions C07_diagnosis_exclusive.
Print Assumptions C08_group_split_iff.
Print Assumptions C08_split_unique.
Print Assumptions C08_split_exists_unless_lone_quote.
Print Assumptions C08_split_or_lone_exclusive.
Print Assumptions C08_quote_free_fields.
Print Assumptions C08_fields_lossless.
Print Assumptions C08_only_quotes_and_separators_lost.
Print Assumptions C08_empty_item_was_quoted.
Print Assumptions C09_word_compound_refuted.
Print Assumptions C09_word_compound_partial.
Print Assumptions C09_word_compound_not_leading_partial.
Print Assumptions C10_configured_characters_refuted.
Print Assumptions C10_configured_characters_partial.
