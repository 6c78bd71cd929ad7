(** Formatted texts: C62 (sprintf), C63 (the messages of the library), C64 (the
    output of a Context). *)
From Coq Require Import Ascii String NArith ZArith QArith Bool PeanoNat Lia List.
From Verif Require LexerSpec Exec.
From Verif Require Import Util Base StringConv StringConvSpec StringConvProofs Serializer SerializerSpec
  SerializerProofs ExecSpec ExecProofs FloatConv Mem MemProofs StringMem StringMemSpec StringMemProofs
  P_StringMem Printf PrintfSpec PrintfProofs Messages MessagesProofs.
Import ListNotations.
Local Open Scope nat_scope.
Local Notation length := List.length.

(** ** C62 *)

(** Whatever the format and the arguments, sprintf should return a String with
    the text, if the address space is large enough for it. *)
Definition C62_full_statement : Prop :=
  forall W imax strict h fmt f args a t,
    c_text h fmt f -> given imax h args a -> prints f a t ->
    S (S imax) < W -> S (S (length t)) < W ->
    exists h' s, sprintf W imax strict h fmt args = Done (h', s) /\ new_string h h' s t.

(** It does if the length of the text is an int: the buffer is large enough,
    every byte is written, nothing else is touched and nothing leaks. *)
Theorem C62_text_partial : forall W imax strict h fmt f args a t,
  c_text h fmt f -> given imax h args a -> prints f a t -> fits W imax strict (length t) ->
  exists h' s, sprintf W imax strict h fmt args = Done (h', s) /\ new_string h h' s t.
Proof.
  intros W imax strict h fmt f args a t Hf Hg Hp (F1 & F2 & F3).
  destruct (vsprintf_ok W imax strict h fmt f args a t Hf Hg Hp F1 F2 F3) as (h' & s & k & E & R & V & Z).
  exists h', s. split; [exact E|]. eapply rep_new_string; eassumption.
Qed.

(** A longer text: the first vsnprintf returns a negative number, which becomes
    the size SIZE_MAX, and resize writes a terminator outside the storage. *)
Theorem C62_long_text : forall W imax strict h fmt f args a t,
  c_text h fmt f -> given imax h args a -> prints f a t ->
  imax < length t -> 1 < W -> sprintf W imax strict h fmt args = Fault OutOfBounds.
Proof.
  intros W imax strict h fmt f args a t Hf Hg Hp Ht HW. unfold sprintf, vsprintf.
  rewrite (measure_ok imax strict _ _ _ _ _ _ Hf Hg Hp).
  destruct (Nat.ltb_spec imax (length t)) as [_|]; [|lia]. cbn [bind snd fst].
  assert (to_size W (-1) = W - 1) as ->.
  { unfold to_size. replace (-1 mod Z.of_nat W)%Z with (Z.of_nat (W - 1)); [apply Nat2Z.id|].
    apply Z.mod_unique with (q := (-1)%Z); lia. }
  destruct (empty_string_ok W h HW) as (h0 & s0 & k0 & -> & R0 & _). cbn [bind fst snd].
  inversion R0 as [|l k cs H]; subst.
  rewrite (C42_resize_wraps_refuted _ _ _ _ _ _ H) by lia. reflexivity.
Qed.

Theorem C62_full_statement_refuted : ~ C62_full_statement.
Proof.
  intros F. specialize (F 100 3 false empty_heap (cstring "long") (lit "long") [] [] (lit "long")).
  destruct F as (h' & s & E & _); try (cbn; lia).
  - apply c_text_ext. apply no_nul_b_ok. reflexivity.
  - constructor.
  - now apply prints_only.
  - vm_compute in E. discriminate.
Qed.

(** C libraries that refuse buffers of more than INT_MAX bytes: a text of INT_MAX
    bytes fails the assertion. *)
Theorem C62_longest_text : forall W imax h fmt f args a t,
  c_text h fmt f -> given imax h args a -> prints f a t ->
  length t = imax -> S (S imax) < W -> sprintf W imax true h fmt args = Fault AssertFailed.
Proof.
  intros W imax h fmt f args a t Hf Hg Hp Ht HW. unfold sprintf, vsprintf.
  rewrite (measure_ok imax true _ _ _ _ _ _ Hf Hg Hp).
  destruct (Nat.ltb_spec imax (length t)) as [|_]; [lia|]. cbn [bind snd fst].
  rewrite to_size_small by lia.
  destruct (empty_string_ok W h) as (h0 & s0 & k0 & -> & R0 & E0); [lia|]. cbn [bind fst snd].
  destruct (resize_ok W h0 s0 [] (Some k0) (length t) R0) as (h1 & s1 & k & cs & -> & H1 & Hs1 & E1 & _);
    [lia|]. cbn [bind fst snd].
  pose proof (evolves_trans _ _ _ _ _ _ E0 E1) as E.
  pose proof (holds_length _ _ _ _ _ _ H1) as Hlen. rewrite resized_length in Hlen.
  rewrite Hlen, wadd_small by lia. unfold vsnprintf.
  rewrite (read_str_ok _ _ _ (c_text_stable _ _ _ _ _ E Hf)). cbn [bind].
  rewrite (render_ok imax _ _ _ _ Hp _ _ (given_stable _ _ _ _ _ _ E Hg) (le_n _)). cbn [bind].
  destruct (Nat.ltb_spec imax (length t + 1)) as [_|]; [|lia]. reflexivity.
Qed.

(** A view of more than INT_MAX bytes: slength() is negative, so that printf
    ignores it and reads on after the end of the view. *)
Theorem C62_long_view_refuted : forall W imax strict h s,
  ~ In NUL s -> imax < length s -> length s <= 2 * imax + 1 ->
  (exists args, view_args imax (View (Ext s) (length s)) = Done args /\
     sprintf W imax strict h (cstring "%.*s") args = Fault OutOfBounds).
Proof.
  intros W imax strict h s Hn H1 H2. exists [VInt CInt (to_int imax (length s)); VPtr (Ext s)].
  split; [reflexivity|]. unfold sprintf, vsprintf, vsnprintf.
  rewrite (read_str_ok h (cstring "%.*s") (lit "%.*s"))
    by (apply c_text_ext, no_nul_b_ok; reflexivity).
  cbn [bind lit list_ascii_of_string length render]. rewrite Ascii.eqb_refl.
  change (find_conv conversions ["%"%char; "."%char; "*"%char; "s"%char]) with (Some (CvView, @nil byte)).
  cbn [convert].
  assert (to_int imax (length s) < 0)%Z as Hneg.
  { unfold to_int. rewrite Nat.mod_small by lia. destruct (Nat.leb_spec (length s) imax); lia. }
  destruct (Z.ltb_spec (to_int imax (length s)) 0) as [_|]; [|lia].
  enough (read_str h (Ext s) = Fault OutOfBounds) as -> by reflexivity.
  unfold read_str, strlen. cbn [object_size].
  enough (forall r pre fuel, s = pre ++ r -> length r < fuel ->
            strlen_from h (Ext s) (length pre) fuel = Fault OutOfBounds) as G
    by (rewrite (G s [] _ eq_refl) by lia; reflexivity).
  induction r as [|c r IH]; intros pre fuel Hs Hf; (destruct fuel as [|fuel]; [lia|]);
    cbn [strlen_from load_value]; unfold load_value, load.
  - rewrite app_nil_r in Hs. rewrite (proj2 (nth_error_None s (length pre))) by (rewrite Hs; lia).
    reflexivity.
  - rewrite Hs at 1. rewrite nth_error_app2, Nat.sub_diag by lia. cbn [nth_error bind].
    destruct (Ascii.eqb_spec c NUL) as [->|_].
    + exfalso. apply Hn. rewrite Hs. apply in_or_app. right. left. reflexivity.
    + specialize (IH (pre ++ [c]) fuel). rewrite app_length, Nat.add_1_r in IH.
      rewrite IH; [reflexivity|rewrite <- app_assoc; assumption|cbn in Hf; lia].
Qed.

(** A format with several conversions, a C string in a block and a view of a part
    of another block. *)
Definition ex_heap : mem :=
  Heap [Some (map Some (lit "abc" ++ [NUL])); None; Some (None :: map Some (lit "xyz"))] 0.

Definition ex_args : list varg :=
  [VPtr (At 0 1); VInt CInt (to_int 1000 2); VPtr (At 2 2); VInt CLong (-17); VSize 3].

Example C62_ex :
  c_text ex_heap (cstring "%s '%.*s' %ld%% %zu") (lit "%s '%.*s' %ld%% %zu") /\
  given 1000 ex_heap ex_args [SStr (lit "bc"); SView (lit "yz"); SInt CLong (-17); SSize 3] /\
  prints (lit "%s '%.*s' %ld%% %zu") [SStr (lit "bc"); SView (lit "yz"); SInt CLong (-17); SSize 3]
         (lit "bc 'yz' -17% 3") /\
  fits 5000 1000 true (length (lit "bc 'yz' -17% 3")) /\
  (hs <- sprintf 5000 1000 true ex_heap (cstring "%s '%.*s' %ld%% %zu") ex_args ;;
   v <- str_view (snd hs) ;; view_bytes (fst hs) v) = Done (lit "bc 'yz' -17% 3").
Proof.
  assert (forall i (l : bytes) c, nth_error l i = Some c -> i < length l) as B
    by (intros i l c H; apply nth_error_Some; congruence).
  split; [apply c_text_ext, no_nul_b_ok; reflexivity|]. split; [|split; [|split]].
  - unfold ex_args. constructor.
    { split; [|apply no_nul_b_ok; reflexivity]. split; [reflexivity|]. intros i c H.
      pose proof (B _ _ _ H) as L. cbn in L.
      destruct i as [|[|[|i]]]; try lia; cbn in H; injection H as <-; reflexivity. }
    apply (given_view 1000 ex_heap (At 2 2) (lit "yz")).
    { split; [reflexivity|]. intros i c H. pose proof (B _ _ _ H) as L. cbn in L.
      destruct i as [|[|i]]; try lia; cbn in H; injection H as <-; reflexivity. }
    { cbn. lia. }
    constructor; [discriminate|]. repeat constructor.
  - change (prints (lit "%s" ++ lit " '" ++ lit "%.*s" ++ lit "' " ++ lit "%ld" ++ lit "%%" ++ lit " " ++
                    lit "%zu" ++ [])
              [SStr (lit "bc"); SView (lit "yz"); SInt CLong (-17); SSize 3]
              (lit "bc" ++ lit " '" ++ lit "yz" ++ lit "' " ++ lit "-17" ++ "%"%char :: lit " " ++
               lit "3" ++ [])).
    apply prints_s. apply prints_text; [reflexivity|]. apply prints_view.
    { constructor. apply no_nul_b_ok. reflexivity. }
    apply prints_text; [reflexivity|]. apply (prints_int CLong (lit "%ld")); [constructor| |].
    { apply (canonical_neg 17 (lit "17")); [lia|]. apply (dec_canonical 17). lia. }
    apply prints_percent. apply prints_text; [reflexivity|]. apply prints_size; [|constructor].
    apply (printf_zu_canonical 3).
  - repeat split; cbn; lia.
  - vm_compute. reflexivity.
Qed.

(** The theorems about long texts applied where INT_MAX is 3 or 4. *)
Example C62_ex_long :
  sprintf 100 3 false empty_heap (cstring "abcd") [] = Fault OutOfBounds /\
  sprintf 100 4 true empty_heap (cstring "abcd") [] = Fault AssertFailed.
Proof.
  assert (c_text empty_heap (cstring "abcd") (lit "abcd")) as C by (apply c_text_ext, no_nul_b_ok; reflexivity).
  assert (prints (lit "abcd") [] (lit "abcd")) as P.
  { rewrite <- (app_nil_r (lit "abcd")). apply prints_text; [reflexivity|constructor]. }
  split.
  - apply (C62_long_text 100 3 false empty_heap _ _ _ _ _ C (given_nil _ _) P); cbn; lia.
  - apply (C62_longest_text 100 4 empty_heap _ _ _ _ _ C (given_nil _ _) P); cbn; lia.
Qed.

Example C62_ex_long_view :
  exists args, view_args 3 (View (Ext (lit "abcd")) 4) = Done args /\
    sprintf 100 3 false empty_heap (cstring "%.*s") args = Fault OutOfBounds.
Proof. apply (C62_long_view_refuted 100 3 false empty_heap (lit "abcd")); [apply no_nul_b_ok; reflexivity| |]; cbn; lia. Qed.

(** ** C63 *)

(** Every message is the one of the specification; and it is a new String, no
    other memory is changed, and the temporary Strings are gone. *)
Section C63.
Variables (W imax : nat) (strict : bool).
Local Notation fits := (fits W imax strict).

(** [r] returns a new String with the text [t]. *)
Definition returns (h : mem) (r : outcome (mem * str)) (t : bytes) : Prop :=
  exists h' s, r = Done (h', s) /\ new_string h h' s t.

Theorem C63_unknown : forall h name s t,
  view_shows h name s -> length s <= imax -> unknown_message s t -> fits (length t) ->
  returns h (msg_unknown W imax strict h name) t.
Proof. intros. eapply makes_new_string, unknown_ok; eassumption. Qed.

Theorem C63_missing : forall h key s t,
  view_shows h key s -> length s <= imax -> missing_message s t -> fits (length t) ->
  returns h (msg_missing W imax strict h key) t.
Proof. intros. eapply makes_new_string, missing_ok; eassumption. Qed.

Theorem C63_exception : forall h p what t,
  c_text h p what -> exception_message (Exec.StdException what) t -> fits (length t) ->
  returns h (msg_exception W imax strict h p) t.
Proof.
  intros h p what t Hp Ht Hf. inversion Ht as [w shown B|]; subst.
  assert (shown = what) as ->.
  { destruct Hp as (_ & Hn). inversion B as [|u r Hu]; subst; [reflexivity|].
    exfalso. apply Hn. apply in_or_app. right. left. reflexivity. }
  eapply makes_new_string, exception_ok; eassumption.
Qed.

Theorem C63_lexer : forall sg h c,
  (forall t, t = LexerSpec.message (LexerSpec.ELex (LexerSpec.OpenQuote c)) -> fits (length t) ->
     returns h (msg_open_quote W imax strict sg h c) t) /\
  (forall t, t = LexerSpec.message (LexerSpec.ELex (LexerSpec.OpenGroup c)) -> fits (length t) ->
     returns h (msg_open_group W imax strict sg h c) t).
Proof.
  intros sg h c. split; intros t -> Hf; eapply makes_new_string.
  - apply open_quote_ok; [reflexivity|assumption].
  - apply open_group_ok; [reflexivity|assumption].
Qed.

Lemma before_nul_fun s : before_nul s (LexerSpec.before_nul s).
Proof.
  induction s as [|c s IH]; [constructor; intros []|]. cbn [LexerSpec.before_nul].
  destruct (ascii_dec c (ascii_of_nat 0)) as [->|Hn].
  - apply (before_nul_some [] s). intros [].
  - remember (LexerSpec.before_nul s) as u eqn:Eu. clear Eu. destruct IH as [u Hu|u r Hu].
    + apply before_nul_none. intros [X|X]; [congruence|contradiction].
    + apply (before_nul_some (c :: u) r). intros [X|X]; [congruence|contradiction].
Qed.

Theorem C63_first_token : forall h v s k t,
  view_shows h v s -> length s <= imax -> (k = LexerSpec.SStr s \/ k = LexerSpec.SGrp s) ->
  t = LexerSpec.message (LexerSpec.EFirst k) -> fits (length t) ->
  returns h (msg_first_token W imax strict h v) t.
Proof.
  intros h v s k t Hv Hl Hk -> Hf. eapply makes_new_string.
  eapply first_token_ok; [exact Hv|exact Hl|apply before_nul_fun| |exact Hf].
  destruct Hk as [-> | ->]; reflexivity.
Qed.

(** The numbers, for every integer type and value. *)
Theorem C63_integers : forall p h t v d,
  in_range p t v -> canonical v d -> fits (length d) ->
  returns h (toString_mem W imax strict h t v) d.
Proof.
  intros p h t v d Hr Hd Hf. eapply makes_new_string, toString_ok; try assumption.
  intros Hu. destruct t; try discriminate; destruct Hr as (Hr & _); exact Hr.
Qed.

Theorem C63_floats : forall h long v,
  fits (length (toStringF v)) -> returns h (toStringF_mem W imax strict h long v) (toStringF v).
Proof.
  intros h long v Hf. eapply makes_new_string, toStringF_ok; [assumption|].
  destruct Hf as (_ & _ & Hf). lia.
Qed.

(** The sub-values of a value, separated by spaces. *)
Theorem C63_value : forall h input texts t,
  Forall2 (view_shows h) input texts -> joined (lit " ") texts t -> S (S (length t)) < W ->
  returns h (value_str_mem W h input) t.
Proof.
  intros h input texts t Hi Ht Hf. rewrite (joined_det _ _ _ _ Ht (value_str_joined texts)) in *.
  eapply makes_new_string, value_str_ok; [assumption|lia|lia].
Qed.

(** Failed conversions; the texts end at a NUL. *)
Theorem C63_conversion : forall h ty name input texts details d joint shown_input shown_name shown_d t,
  view_shows h ty name -> Forall2 (view_shows h) input texts -> view_shows h details d ->
  length name <= imax -> length d <= imax ->
  joined (lit " ") texts joint -> S (length joint) < W ->
  before_nul joint shown_input -> before_nul name shown_name -> before_nul d shown_d ->
  t = lit "Unable to convert '" ++ shown_input ++ lit "' to type '" ++ shown_name ++ lit "'" ++
      (match d with [] => [] | _ => lit ": " ++ shown_d end) ->
  fits (length t) -> returns h (generic_error_mem W imax strict h ty input details) t.
Proof.
  intros h ty name input texts details d joint si sn sd t Ht Hi Hd Hn Hdl Hj Hw H1 H2 H3 He Hf.
  rewrite (joined_det _ _ _ _ Hj (value_str_joined texts)) in *.
  eapply makes_new_string, generic_ok; eassumption.
Qed.

Theorem C63_mismatch : forall h ty name input texts x d joint shown_input shown_name t,
  view_shows h ty name -> Forall2 (view_shows h) input texts -> length name <= imax ->
  joined (lit " ") texts joint -> S (length joint) < W ->
  before_nul joint shown_input -> before_nul name shown_name ->
  mismatch_detail x (length texts) d ->
  t = lit "Unable to convert '" ++ shown_input ++ lit "' to type '" ++ shown_name ++ lit "': " ++ d ->
  fits (length t) -> returns h (mismatch_error_mem W imax strict h ty input x) t.
Proof.
  intros h ty name input texts x d joint si sn t Ht Hi Hn Hj Hw H1 H2 Hd He Hf.
  rewrite (joined_det _ _ _ _ Hj (value_str_joined texts)) in *.
  eapply makes_new_string, mismatch_ok; eassumption.
Qed.

Theorem C63_arity : forall h name s arities got t,
  view_shows h name s -> length s <= imax -> S (length arities * 3) < W ->
  arity_message s arities got t -> fits (length t) ->
  returns h (msg_arity W imax strict h name arities got) t.
Proof. intros. eapply makes_new_string, arity_ok; eassumption. Qed.

End C63.

(** The name is a part of a text in memory, three overloads. *)
Example C63_ex_arity :
  view_shows ex_heap (View (At 0 1) 2) (lit "bc") /\
  arity_message (lit "bc") [1; 10; 2] 4
    (lit "Wrong number of arguments to 'bc': expected 1, 10 or 2, got 4") /\
  fits 5000 1000 true (length (lit "Wrong number of arguments to 'bc': expected 1, 10 or 2, got 4")) /\
  (hs <- msg_arity 5000 1000 true ex_heap (View (At 0 1) 2) [1; 10; 2] 4 ;;
   v <- str_view (snd hs) ;; view_bytes (fst hs) v) =
  Done (lit "Wrong number of arguments to 'bc': expected 1, 10 or 2, got 4").
Proof.
  split; [|split; [|split]].
  - split; [|reflexivity]. split; [reflexivity|]. intros i c H.
    assert (i < 2) as L by (apply (nth_error_Some (lit "bc")); congruence).
    destruct i as [|[|i]]; try lia; cbn in H; injection H as <-; reflexivity.
  - exists (lit "bc"), (lit "1, 10 or 2"), (lit "4").
    split; [constructor; apply no_nul_b_ok; reflexivity|].
    split; [apply (enum_text_enumeration [1; 10; 2])|].
    split; [apply (printf_zu_canonical 4)|reflexivity].
  - repeat split; cbn; lia.
  - vm_compute. reflexivity.
Qed.

(** A value with a NUL in it: the message ends there. *)
Example C63_ex_conversion :
  view_shows empty_heap (View (Ext (lit "a" ++ NUL :: lit "b")) 3) (lit "a" ++ NUL :: lit "b") /\
  joined (lit " ") [lit "a" ++ NUL :: lit "b"; lit "c"] (lit "a" ++ NUL :: lit "b c") /\
  before_nul (lit "a" ++ NUL :: lit "b c") (lit "a") /\
  (hs <- mismatch_error_mem 5000 1000 true empty_heap (View (cstring "int") 3)
           [View (Ext (lit "a" ++ NUL :: lit "b")) 3; View (Ext (lit "c")) 1] 1 ;;
   v <- str_view (snd hs) ;; view_bytes (fst hs) v) =
  Done (lit "Unable to convert 'a' to type 'int': Expected 1 subvalues, got 2").
Proof.
  split; [|split; [|split]].
  - split; [|reflexivity]. rewrite <- (app_nil_r (lit "a" ++ _)) at 1. apply points_ext.
  - apply (joined_cons (lit " ") (lit "a" ++ NUL :: lit "b") [lit "c"] (lit "c"));
      [discriminate|constructor].
  - apply (before_nul_some (lit "a")). apply no_nul_b_ok. reflexivity.
  - vm_compute. reflexivity.
Qed.

(** Each theorem applied to a name with a NUL in it, an exception, a value of two texts, ... *)
Definition ex_view (s : bytes) : view := View (Ext s) (length s).

Lemma ex_view_shows h s : view_shows h (ex_view s) s.
Proof. split; [|reflexivity]. rewrite <- (app_nil_r s) at 1. apply points_ext. Qed.

Lemma ex_fits n : n < 1000 -> fits 5000 1000 true n.
Proof. intros H. repeat split; lia. Qed.

Example C63_ex_messages :
  returns ex_heap (msg_unknown 5000 1000 true ex_heap (ex_view (lit "a" ++ NUL :: lit "b")))
    (lit "No function 'a' is registered") /\
  returns ex_heap (msg_missing 5000 1000 true ex_heap (ex_view (lit "key")))
    (lit "Missing named argument 'key'") /\
  returns ex_heap (msg_exception 5000 1000 true ex_heap (At 0 1))
    (lit "Exception caught during execution: bc") /\
  returns ex_heap (msg_open_quote 5000 1000 true true ex_heap "'"%char)
    (LexerSpec.message (LexerSpec.ELex (LexerSpec.OpenQuote "'"%char))) /\
  returns ex_heap (msg_first_token 5000 1000 true ex_heap (ex_view (lit "x y")))
    (LexerSpec.message (LexerSpec.EFirst (LexerSpec.SStr (lit "x y")))).
Proof.
  assert (forall i (l : bytes) c, nth_error l i = Some c -> i < length l) as B
    by (intros i l c H; apply nth_error_Some; congruence).
  split; [|split; [|split; [|split]]].
  - eapply C63_unknown; [apply ex_view_shows|cbn; lia| |apply ex_fits; cbn; lia].
    exists (lit "a"). split; [apply (before_nul_some (lit "a")), no_nul_b_ok; reflexivity|reflexivity].
  - eapply C63_missing; [apply ex_view_shows|cbn; lia| |apply ex_fits; cbn; lia].
    exists (lit "key"). split; [constructor; apply no_nul_b_ok; reflexivity|reflexivity].
  - apply (C63_exception 5000 1000 true ex_heap (At 0 1) (lit "bc")); [| |apply ex_fits; cbn; lia].
    + split; [|apply no_nul_b_ok; reflexivity]. split; [reflexivity|]. intros i c H.
      pose proof (B _ _ _ H) as L. cbn in L.
      destruct i as [|[|[|i]]]; try lia; cbn in H; injection H as <-; reflexivity.
    + apply (exception_std (lit "bc") (lit "bc")). constructor. apply no_nul_b_ok. reflexivity.
  - apply (proj1 (C63_lexer 5000 1000 true true ex_heap "'"%char)); [reflexivity|apply ex_fits; cbn; lia].
  - eapply C63_first_token; [apply (ex_view_shows _ (lit "x y"))|cbn; lia|left; reflexivity|reflexivity|apply ex_fits; cbn; lia].
Qed.

Example C63_ex_numbers_and_values :
  returns ex_heap (toString_mem 5000 1000 true ex_heap CShort (-32768)) (lit "-32768") /\
  returns ex_heap (toStringF_mem 5000 1000 true ex_heap false (Fin true 3 (-2))) (lit "-0.75") /\
  returns ex_heap (value_str_mem 5000 ex_heap [View (At 0 1) 2; ex_view (lit "c")]) (lit "bc c") /\
  returns ex_heap (generic_error_mem 5000 1000 true ex_heap (ex_view (lit "int")) [ex_view (lit "a"); ex_view []]
                     (ex_view (lit "why")))
    (lit "Unable to convert 'a ' to type 'int': why").
Proof.
  split; [|split; [|split]].
  - apply (C63_integers 5000 1000 true (Platform true Long64)); [vm_compute; split; discriminate| |apply ex_fits; cbn; lia].
    apply (canonical_neg 32768 (lit "32768")); [lia|]. apply (dec_canonical 32768). lia.
  - change (lit "-0.75") with (toStringF (Fin true 3 (-2))).
    apply C63_floats. apply ex_fits. vm_compute. lia.
  - apply (C63_value 5000 ex_heap _ [lit "bc"; lit "c"]).
    + constructor; [exact (proj1 C63_ex_arity)|]. constructor; [apply ex_view_shows|constructor].
    + apply (joined_cons (lit " ") (lit "bc") [lit "c"] (lit "c")); [discriminate|constructor].
    + cbn. lia.
  - eapply (C63_conversion 5000 1000 true ex_heap (ex_view (lit "int")) (lit "int")
              [ex_view (lit "a"); ex_view []] [lit "a"; []] (ex_view (lit "why")) (lit "why") (lit "a ")
              (lit "a ") (lit "int") (lit "why")).
    + apply ex_view_shows.
    + repeat constructor; try apply ex_view_shows.
      all: apply (ex_view_shows ex_heap).
    + apply ex_view_shows.
    + cbn; lia.
    + cbn; lia.
    + apply (joined_cons (lit " ") (lit "a") [[]] []); [discriminate|constructor].
    + cbn; lia.
    + constructor; apply no_nul_b_ok; reflexivity.
    + constructor; apply no_nul_b_ok; reflexivity.
    + constructor; apply no_nul_b_ok; reflexivity.
    + reflexivity.
    + apply ex_fits; cbn; lia.
Qed.

(** ** C64 *)

(** Context::logf adds the text to the output, Context::loglinef also a line
    break.  [o] is the storage of the output (None for an output that has been
    moved from).  Other memory is unchanged, and no storage is left over. *)
Section C64.
Variables (W imax : nat) (strict : bool).

Lemma rep_text h s t k : rep W h s (known t) (Some k) -> m_size s = S (length t) -> text_in h s t.
Proof.
  intros R Z. inversion R as [|l k' cs H]; subst. split; [|split].
  - rewrite (rep_length _ _ _ _ _ R). apply map_length.
  - intros i c Hi. rewrite (hd_ptr _ _ _ _ _ _ H).
    apply (load_value_at _ _ _ _ cs); [apply (hd_live _ _ _ _ _ _ H)|].
    apply (hd_shows _ _ _ _ _ _ H). now apply known_nth.
  - rewrite (hd_ptr _ _ _ _ _ _ H).
    apply (load_value_at _ _ _ _ cs); [apply (hd_live _ _ _ _ _ _ H)|].
    cbn [Nat.add]. rewrite <- (map_length Some t). apply (hd_end _ _ _ _ _ _ H). lia.
Qed.

Definition appends (h : mem) (o : option nat) (r : outcome (mem * str)) (t : bytes) : Prop :=
  exists h' out', r = Done (h', out') /\ text_in h' out' t /\
    (forall b cs, live h b cs -> o <> Some b -> live h' b cs) /\
    (forall b cs, live h' b cs -> m_ptr out' = At b 0 \/ (live h b cs /\ o <> Some b)).

Lemma appends_intro h o r l u :
  (exists h' out' k', r = Done (h', out') /\ rep W h' out' (known l ++ known u) (Some k') /\
     evolves h o h' (Some k') /\ m_size out' = S (length (known l) + length u)) ->
  appends h o r (l ++ u).
Proof.
  intros (h' & out' & k' & -> & R & (E1 & E2) & Z). exists h', out'. split; [reflexivity|].
  unfold known in R. rewrite <- map_app in R. split; [|split].
  - eapply rep_text; [exact R|]. rewrite Z, app_length. unfold known. now rewrite map_length.
  - intros b cs Hb Ho. now destruct (E2 b cs Hb Ho).
  - intros b cs Hb. destruct (E1 b cs Hb) as [X|(Ho & Hl)]; [|right; auto].
    left. inversion R as [|l' k cs' H]; subst. rewrite (hd_ptr _ _ _ _ _ _ H). congruence.
Qed.

Theorem C64_logf : forall h out l o fmt f args a t,
  rep W h out (known l) o -> c_text h fmt f -> given imax h args a -> prints f a t ->
  fits W imax strict (length t) -> S (length l + length t) < W ->
  appends h o (ctx_logf W imax strict h out fmt args) (l ++ t).
Proof.
  intros h out l o fmt f args a t Ro Hf Hg Hp (F1 & F2 & F3) Hfit. apply appends_intro.
  apply (statement_ok W imax strict h out (known l) o fmt f args a t t (ctx_log W)
           Ro Hf Hg Hp F1 F2 F3).
  intros h1 s k R1 Rs Ho. apply log_ok with (k := k); try assumption.
  unfold known. rewrite map_length. exact Hfit.
Qed.

Theorem C64_loglinef : forall h out l o fmt f args a t,
  rep W h out (known l) o -> c_text h fmt f -> given imax h args a -> prints f a t ->
  fits W imax strict (length t) -> S (S (length l + length t)) < W ->
  appends h o (ctx_loglinef W imax strict h out fmt args) (l ++ t ++ [ascii_of_nat 10]).
Proof.
  intros h out l o fmt f args a t Ro Hf Hg Hp (F1 & F2 & F3) Hfit. apply appends_intro.
  apply (statement_ok W imax strict h out (known l) o fmt f args a t (t ++ [ascii_of_nat 10])
           (ctx_logline W) Ro Hf Hg Hp F1 F2 F3).
  intros h1 s k R1 Rs Ho.
  apply (logline_ok W h1 out (known l) o s t k R1 Rs Ho).
  unfold known. rewrite map_length. exact Hfit.
Qed.

End C64.

(** Two statements, the second prints a part of the output itself. *)
Example C64_ex :
  (hs <- str_make_c 5000 empty_heap (cstring "") ;;
   ho <- ctx_loglinef 5000 1000 true (fst hs) (snd hs) (cstring "%d") [VInt CInt 42] ;;
   h2 <- ctx_logf 5000 1000 true (fst ho) (snd ho) (cstring "%.*s!")
           [VInt CInt 2; VPtr (m_ptr (snd ho))] ;;
   v <- str_view (snd h2) ;; view_bytes (fst h2) v) = Done (lit "42" ++ ascii_of_nat 10 :: lit "42!").
Proof. vm_compute. reflexivity. Qed.

(** The theorem applied to an output without storage. *)
Example C64_ex_applied :
  appends ex_heap None
    (ctx_loglinef 5000 1000 true ex_heap (Buffer Null 0 1 0 0) (cstring "%s!") [VPtr (At 0 1)])
    ([] ++ lit "bc!" ++ [ascii_of_nat 10]).
Proof.
  assert (forall i (l : bytes) c, nth_error l i = Some c -> i < length l) as B
    by (intros i l c H; apply nth_error_Some; congruence).
  apply (C64_loglinef 5000 1000 true ex_heap (Buffer Null 0 1 0 0) [] None (cstring "%s!") (lit "%s!")
           [VPtr (At 0 1)] [SStr (lit "bc")] (lit "bc!")).
  - apply rep_null; reflexivity.
  - apply c_text_ext, no_nul_b_ok; reflexivity.
  - constructor; [|constructor].
    split; [|apply no_nul_b_ok; reflexivity]. split; [reflexivity|]. intros i c H.
    pose proof (B _ _ _ H) as L. cbn in L.
    destruct i as [|[|[|i]]]; try lia; cbn in H; injection H as <-; reflexivity.
  - change (prints (lit "%s" ++ lit "!" ++ []) [SStr (lit "bc")] (lit "bc" ++ lit "!" ++ [])).
    apply prints_s. apply prints_text; [reflexivity|constructor].
  - repeat split; cbn; lia.
  - cbn; lia.
Qed.

(** * Assumptions *)
Print Assumptions C62_text_partial.
Print Assumptions C62_long_text.
Print Assumptions C62_full_statement_refuted.
Print Assumptions C62_longest_text.
Print Assumptions C62_long_view_refuted.
Print Assumptions C63_unknown.
Print Assumptions C63_missing.
Print Assumptions C63_exception.
Print Assumptions C63_lexer.
Print Assumptions C63_first_token.
Print Assumptions C63_integers.
Print Assumptions C63_floats.
Print Assumptions C63_value.
Print Assumptions C63_conversion.
Print Assumptions C63_mismatch.
Print Assumptions C63_arity.
Print Assumptions C64_logf.
Print Assumptions C64_loglinef.
