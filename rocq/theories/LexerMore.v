(** Further consequences: determinism of the grammar of commands, moving named
    arguments, quoted text, renderer, character roles. *)
From Coq Require Import Ascii String NArith ZArith Bool PeanoNat Lia List.
Import ListNotations.
From Verif Require Import Util Base Lexer LexerSpec LexerProofs LexerMeta.

(** * Determinism of the argument grammar *)

Lemma tok_text_det : forall t a b, tok_text t a -> tok_text t b -> a = b.
Proof. intros t a b H1 H2. inversion H1; subst; inversion H2; reflexivity. Qed.

Lemma tok_text_not_assign : forall t a, tok_text t a -> is_assign t = false.
Proof. intros t a H. inversion H; reflexivity. Qed.

Lemma args_of_det : forall ts a1 st1, args_of ts a1 st1 ->
  forall a2 st2, args_of ts a2 st2 -> a1 = a2 /\ st1 = st2.
Proof.
  intros ts a1 st1 H.
  induction H as [|t ts args st Ht Hn H IH|k w t ts args st Hk Ht H IH|ts|k ts Hk|k Hk];
    intros a2 st2 H2; inversion H2; subst; try (cbn in *; discriminate); try (split; reflexivity).
  - edestruct IH as [-> ->]; [eassumption|]. split; reflexivity.
  - edestruct IH as [-> ->]; [eassumption|].
    assert (w = w0) as -> by (eapply tok_text_det; eassumption). split; reflexivity.
  - inversion Hk.
  - match goal with [ A : tok_text SAssign _ |- _ ] => inversion A end.
Qed.

Section More.
  Variable sg : bool.
  Variable cfg : lexer_cfg.
  Let C := cfg_classes sg cfg.

  Lemma val_of_det : forall t a b, val_of C t a -> val_of C t b -> a = b.
  Proof.
    intros t a b H1 H2. inversion H1; subst; inversion H2; subst; [reflexivity|].
    eapply splits_det; eassumption.
  Qed.

  Lemma input_of_det : forall args p n, input_of C args p n ->
    forall p' n', input_of C args p' n' -> p = p' /\ n = n'.
  Proof.
    intros args p n H. induction H as [|t v args p n Hv H IH|k t v args p n Hv H IH];
      intros p' n' H'; inversion H'; subst; try clear H.
    - split; reflexivity.
    - match goal with [A : input_of C args _ _ |- _] => destruct (IH _ _ A) as [-> ->] end. assert (v = v0) as -> by (eapply val_of_det; eassumption).
      split; reflexivity.
    - match goal with [A : input_of C args _ _ |- _] => destruct (IH _ _ A) as [-> ->] end. assert (v = v0) as -> by (eapply val_of_det; eassumption).
      split; reflexivity.
  Qed.

  Lemma input_of_not_lone : forall args p n, input_of C args p n -> ~ has_lone_quote C args.
  Proof.
    intros args p n H (w & Hw & Hin). 
    induction H as [|t v args p n Hv H IH|k t v args p n Hv H IH].
    - destruct Hin as [[]|(k & [])].
    - destruct Hin as [[E|Hin]|(k & [E|Hin])].
      + injection E as ->. inversion Hv; subst. eapply splits_not_lone; eassumption.
      + apply IH. now left.
      + discriminate.
      + apply IH. right. eauto.
    - destruct Hin as [[E|Hin]|(k' & [E|Hin])].
      + discriminate.
      + apply IH. now left.
      + injection E as -> ->. inversion Hv; subst. eapply splits_not_lone; eassumption.
      + apply IH. right. eauto.
  Qed.

  Lemma command_det : forall s r1 r2, command C s r1 -> command C s r2 -> r1 = r2.
  Proof.
    intros s r1 r2 H1 H2.
    inversion H1; subst; inversion H2; subst;
      match goal with
      | [ A : lexes C s ?x, B : lexes C s ?y |- _ ] =>
          pose proof (lexes_det sg cfg s x y A B) as E
      end; try discriminate; try reflexivity;
      try (injection E as ?; subst); try reflexivity;
      try (match goal with
           | [ A : forall w, SStr ?n <> SStr w |- _ ] => exfalso; exact (A n eq_refl)
           end).
    - match goal with [A : args_of ?t _ _, B : args_of ?t _ _ |- _] =>
        destruct (args_of_det _ _ _ A _ _ B) as [? E] end. now injection E as ->.
    - match goal with [A : args_of ?t _ _, B : args_of ?t _ _ |- _] =>
        destruct (args_of_det _ _ _ A _ _ B) as [? E] end. discriminate.
    - match goal with [A : args_of ?t _ _, B : args_of ?t _ _ |- _] =>
        destruct (args_of_det _ _ _ A _ _ B) as [? E] end. discriminate.
    - match goal with [A : args_of ?t _ _, B : args_of ?t _ _ |- _] =>
        destruct (args_of_det _ _ _ A _ _ B) as [-> E] end.
      match goal with [A : input_of _ ?t _ _, B : input_of _ ?t _ _ |- _] =>
        destruct (input_of_det _ _ _ A _ _ B) as [-> ->] end. reflexivity.
  Qed.

  Lemma command_not_ill : forall s r, command C s r -> ~ ill_command C s.
  Proof.
    intros s r H Hill. pose proof (parse_input_command sg cfg s r H) as E.
    rewrite (parse_input_ill sg cfg s Hill) in E. discriminate.
  Qed.

  (** * Appending to complete argument lists *)

  Lemma args_of_app : forall ts1 a1 o, args_of ts1 a1 o -> o = None ->
    forall ts2 a2 st, next_is_assign ts2 = false -> args_of ts2 a2 st ->
    args_of (ts1 ++ ts2) (a1 ++ a2) st.
  Proof.
    intros ts1 a1 o H.
    induction H as [|t ts args st' Ht Hn H IH|k w t ts args st' Hk Ht H IH|ts|k ts Hk|k Hk];
      intros Ho ts2 a2 st Hn2 H2; try discriminate.
    - exact H2.
    - cbn [app]. apply args_pos; [assumption| |now apply IH].
      destruct ts as [|t' ts]; [exact Hn2|exact Hn].
    - cbn [app]. apply args_named; try assumption. now apply IH.
  Qed.

  Lemma has_lone_incl : forall a b, (forall x, In x a -> In x b) ->
    has_lone_quote C a -> has_lone_quote C b.
  Proof.
    intros a b Hab (w & Hw & [Hin|(k & Hin)]); exists w; (split; [assumption|]).
    - left. auto.
    - right. exists k. auto.
  Qed.

  Lemma input_of_app : forall a p n, input_of C a p n -> forall b p' n', input_of C b p' n' ->
    input_of C (a ++ b) (p ++ p') (n ++ n').
  Proof.
    intros a p n H. induction H; intros b p' n' H'; cbn [app]; [assumption| |]; constructor; auto.
  Qed.

  Lemma input_of_split : forall a b p n, input_of C (a ++ b) p n ->
    exists p1 n1 p2 n2, p = p1 ++ p2 /\ n = n1 ++ n2 /\ input_of C a p1 n1 /\ input_of C b p2 n2.
  Proof.
    induction a as [|x a IH]; intros b p n H.
    - exists [], [], p, n. repeat split; [constructor|assumption].
    - cbn [app] in H. inversion H; subst;
        match goal with [A : input_of _ (a ++ b) _ _ |- _] =>
          destruct (IH _ _ _ A) as (p1 & n1 & p2 & n2 & -> & -> & HA & HB) end.
      + exists (v :: p1), n1, p2, n2. repeat split; [constructor|]; assumption.
      + exists p1, ((k, v) :: n1), p2, n2. repeat split; [constructor|]; assumption.
  Qed.

  Lemma input_of_swap : forall a k v p b ps ns,
    input_of C (a ++ ANamed k v :: APos p :: b) ps ns <->
    input_of C (a ++ APos p :: ANamed k v :: b) ps ns.
  Proof.
    intros a k v p b ps ns. split; intros H; apply input_of_split in H;
      destruct H as (p1 & n1 & p2 & n2 & -> & -> & H1 & H2);
      apply input_of_app; try assumption; inversion H2; subst.
    - match goal with [A : input_of _ (APos _ :: _) _ _ |- _] => inversion A; subst end.
      constructor; [assumption|]. constructor; assumption.
    - match goal with [A : input_of _ (ANamed _ _ :: _) _ _ |- _] => inversion A; subst end.
      constructor; [assumption|]. constructor; assumption.
  Qed.

  (** Moving a named argument over a positional one. *)
  Lemma swap_command : forall s s' name pre a1 k kt v p post,
    args_of pre a1 None -> tok_text kt k -> is_assign v = false -> is_assign p = false ->
    next_is_assign post = false ->
    lexes C s (inl (SStr name :: pre ++ kt :: SAssign :: v :: p :: post)) ->
    lexes C s' (inl (SStr name :: pre ++ p :: kt :: SAssign :: v :: post)) ->
    (forall r, command C s r -> command C s' r) /\
    (forall r, command C s' r -> command C s r) /\
    (ill_command C s -> ill_command C s').
  Proof.
    intros s s' name pre a1 k kt v p post Hpre Hk Hv Hp Hpost Hs Hs'.
    destruct (args_total post) as (a2 & st & H2).
    assert (Hka : is_assign kt = false) by (eapply tok_text_not_assign; eassumption).
    assert (A1 : args_of (pre ++ kt :: SAssign :: v :: p :: post) (a1 ++ ANamed k v :: APos p :: a2) st).
    { eapply args_of_app; [eassumption|reflexivity| |].
      - destruct kt; try reflexivity; discriminate.
      - apply args_named; try assumption. apply args_pos; assumption. }
    assert (A2 : args_of (pre ++ p :: kt :: SAssign :: v :: post) (a1 ++ APos p :: ANamed k v :: a2) st).
    { eapply args_of_app; [eassumption|reflexivity| |].
      - destruct p; try reflexivity; discriminate.
      - apply args_pos; [assumption| |].
        + destruct kt; try reflexivity; discriminate.
        + apply args_named; assumption. }
    assert (I1 : forall x, In x (a1 ++ ANamed k v :: APos p :: a2) <-> In x (a1 ++ APos p :: ANamed k v :: a2)).
    { intros x. rewrite !in_app_iff. cbn [In]. tauto. }
    split; [|split].
    - intros r H. inversion H; subst;
        match goal with [ A : lexes C s _ |- _ ] => pose proof (lexes_det sg cfg s _ _ Hs A) as E end;
        try discriminate; injection E as ? ?; subst.
      + exfalso. eapply H1. reflexivity.
      + match goal with [ A : args_of (pre ++ _) ?x _ |- _ ] =>
          is_var x; destruct (args_of_det _ _ _ A1 _ _ A) as [E1 E2] end; subst.
        eapply cmd_arg_error; [exact Hs'|exact A2|]. intros Hl.
        match goal with [ A : ~ has_lone_quote C _ |- _ ] => apply A end.
        eapply has_lone_incl; [|exact Hl]. intros x Hx. now apply I1.
      + match goal with [ A : args_of (pre ++ _) ?x _ |- _ ] =>
          is_var x; destruct (args_of_det _ _ _ A1 _ _ A) as [E1 E2] end; subst.
        eapply cmd_ok; [exact Hs'|exact A2|]. now apply input_of_swap.
    - intros r H. inversion H; subst;
        match goal with [ A : lexes C s' _ |- _ ] => pose proof (lexes_det sg cfg s' _ _ Hs' A) as E end;
        try discriminate; injection E as ? ?; subst.
      + exfalso. eapply H1. reflexivity.
      + match goal with [ A : args_of (pre ++ _) ?x _ |- _ ] =>
          is_var x; destruct (args_of_det _ _ _ A2 _ _ A) as [E1 E2] end; subst.
        eapply cmd_arg_error; [exact Hs|exact A1|]. intros Hl.
        match goal with [ A : ~ has_lone_quote C _ |- _ ] => apply A end.
        eapply has_lone_incl; [|exact Hl]. intros x Hx. now apply I1.
      + match goal with [ A : args_of (pre ++ _) ?x _ |- _ ] =>
          is_var x; destruct (args_of_det _ _ _ A2 _ _ A) as [E1 E2] end; subst.
        eapply cmd_ok; [exact Hs|exact A1|]. now apply input_of_swap.
    - intros H. inversion H; subst.
      match goal with [ A : lexes C s _ |- _ ] => pose proof (lexes_det sg cfg s _ _ Hs A) as E end.
      injection E as ? ?; subst.
      match goal with [ A : args_of (pre ++ _) ?x _ |- _ ] =>
          is_var x; destruct (args_of_det _ _ _ A1 _ _ A) as [E1 E2] end; subst.
      econstructor; [exact Hs'|exact A2|]. eapply has_lone_incl; [|eassumption].
      intros x Hx. now apply I1.
  Qed.

  Lemma swap_parse : forall s s' name pre a1 k kt v p post,
    args_of pre a1 None -> tok_text kt k -> is_assign v = false -> is_assign p = false ->
    next_is_assign post = false ->
    lexes C s (inl (SStr name :: pre ++ kt :: SAssign :: v :: p :: post)) ->
    lexes C s' (inl (SStr name :: pre ++ p :: kt :: SAssign :: v :: post)) ->
    parse_input sg cfg s = parse_input sg cfg s'.
  Proof.
    intros s s' name pre a1 k kt v p post H1 H2 H3 H4 H5 H6 H7.
    destruct (swap_command _ _ _ _ _ _ _ _ _ _ H1 H2 H3 H4 H5 H6 H7) as (F & _ & G).
    destruct (command_total sg cfg s) as [(x & Hx)|Hill].
    - rewrite (parse_input_command sg cfg _ _ Hx).
      now rewrite (parse_input_command sg cfg _ _ (F _ Hx)).
    - rewrite (parse_input_ill sg cfg _ Hill). now rewrite (parse_input_ill sg cfg _ (G Hill)).
  Qed.

  (** * Appending layouts *)

  Lemma layout_app : forall prev ls1 o1 s1, layout C prev ls1 o1 s1 -> o1 = Closed ->
    forall p l ls2 o s2, is_word l = false -> layout C p (l :: ls2) o s2 ->
    layout C prev (ls1 ++ l :: ls2) o (s1 ++ s2).
  Proof.
    intros prev ls1 o1 s1 H.
    induction H as [prev ws o1 Hws Ho|prev ws l1 ls1 o1 s1 Hws Hl1 Hsep H IH];
      intros -> p l ls2 o s2 Hl H2.
    - cbn [open_text app]. rewrite app_nil_r.
      inversion H2 as [|prev' ws' l' ls' o' s' Hws' Hl' Hsep' Hrest]; subst.
      rewrite app_assoc. apply lay_cons; try assumption.
      + intros c Hc. apply in_app_or in Hc. destruct Hc; auto.
      + congruence.
    - cbn [app]. rewrite <- !app_assoc. apply lay_cons; try assumption. eapply IH; eauto.
  Qed.

  Lemma writes_args_app : forall a1 l1, writes_args C a1 l1 -> forall a2 l2, writes_args C a2 l2 ->
    writes_args C (a1 ++ a2) (l1 ++ l2).
  Proof. intros a1 l1 H. induction H; intros a2 l2 H2; cbn [app]; [assumption| |]; constructor; auto. Qed.

  Lemma positional_app : forall a b, positional (a ++ b) = positional a ++ positional b.
  Proof. intros a b. unfold positional. apply flat_map_app. Qed.
  Lemma named_app : forall a b, named (a ++ b) = named a ++ named b.
  Proof. intros a b. unfold named. apply flat_map_app. Qed.

  Lemma quoted_argument : forall name pre post s1 l2 s2 q body q',
    writes C name pre s1 -> writes_args C post l2 -> layout C false l2 Closed s2 ->
    k_quote C q = true -> none (k_quote C) body -> k_quote C q' = true ->
    parse_input sg cfg (s1 ++ q :: body ++ q' :: s2) =
      Done (Value (Input name (positional pre ++ [body] :: positional post) (named pre ++ named post))).
  Proof.
    intros name pre post s1 l2 s2 q body q' (ln & l1 & Hn & Ha1 & Hl1) Ha2 Hl2 Hq Hb Hq'.
    assert (W : writes C name (pre ++ WPos [body] :: post) (s1 ++ q :: body ++ q' :: s2)).
    { exists ln, (l1 ++ LQuoted q body q' :: l2). split; [assumption|]. split.
      - apply writes_args_app; [assumption|]. apply wa_pos; [|assumption].
        apply wv_single. constructor.
      - change (ln :: l1 ++ LQuoted q body q' :: l2) with ((ln :: l1) ++ LQuoted q body q' :: l2).
        eapply layout_app with (p := false); [eassumption|reflexivity|reflexivity|].
        replace (q :: body ++ q' :: s2) with ([] ++ lexeme_text (LQuoted q body q') ++ s2)
          by (cbn; now rewrite <- app_assoc).
        apply lay_cons; try assumption.
        + intros c [].
        + cbn [lexeme_ok]. auto.
        + discriminate. }
    rewrite (writes_parse sg cfg _ _ _ W). rewrite positional_app, named_app. reflexivity.
  Qed.

  Lemma quoted_name : forall l2 s2 args q body q' ws,
    all (k_space C) ws ->
    writes_args C args l2 -> layout C false l2 Closed s2 ->
    k_quote C q = true -> none (k_quote C) body -> k_quote C q' = true ->
    parse_input sg cfg (ws ++ q :: body ++ q' :: s2) =
      Done (Value (Input body (positional args) (named args))).
  Proof.
    intros l2 s2 args q body q' ws Hws Ha Hl Hq Hb Hq'. apply writes_parse.
    exists (LQuoted q body q'), l2. split; [constructor|]. split; [assumption|].
    replace (ws ++ q :: body ++ q' :: s2) with (ws ++ lexeme_text (LQuoted q body q') ++ s2)
      by (cbn; now rewrite <- app_assoc).
    apply lay_cons; try assumption; [cbn [lexeme_ok]; auto|discriminate].
  Qed.


  (** A single word or group after a bare-word command name. *)
  Lemma one_lexeme : forall name c v l ws,
    writes_text C name l -> lexeme_ok C l -> k_space C c = true -> all (k_space C) ws ->
    lexeme_ok C v -> forall t, lexeme_tok C v = t -> is_assign t = false ->
    lexes C (lexeme_text l ++ c :: ws ++ lexeme_text v) (inl [SStr name; t]).
  Proof.
    intros name c v l ws Hn Hl Hc Hws Hv t Ht Ha.
    assert (L : layout C false [l; v] Closed (lexeme_text l ++ c :: ws ++ lexeme_text v)).
    { replace (lexeme_text l ++ c :: ws ++ lexeme_text v)
        with ([] ++ lexeme_text l ++ ((c :: ws) ++ lexeme_text v ++ ([] ++ open_text Closed)))
        by (cbn [app open_text]; now rewrite !app_nil_r).
      apply lay_cons; [intros x []|assumption|discriminate|].
      apply lay_cons; [|assumption|discriminate|].
      - intros x [<-|Hx]; [assumption|now apply Hws].
      - apply lay_end; [intros x []|exact I]. }
    apply layout_lexes in L. rewrite layout_result_closed in L. cbn [map] in L. fold C in L.
    pose proof (writes_text_tok sg cfg _ _ Hn) as E. fold C in E.
    rewrite Ht, E in L. exact L.
  Qed.

  Lemma one_value : forall s name t v, lexes C s (inl [SStr name; t]) -> is_assign t = false ->
    (parse_input sg cfg s = Done (Value (Input name [v] [])) <-> val_of C t v).
  Proof.
    intros s name t v Hl Ht.
    assert (A : args_of [t] [APos t] None) by (apply args_pos; [assumption|reflexivity|constructor]).
    split.
    - intros H. change (Input name [v] []) with (of_sinput (SInput name [v] [])) in H.
      apply parse_input_ok_iff in H. inversion H; subst.
      match goal with [ B : lexes _ s (inl (SStr name :: _)) |- _ ] =>
        pose proof (lexes_det sg cfg s _ _ Hl B) as E end. injection E as <-.
      match goal with [ B : args_of [t] _ _ |- _ ] =>
        destruct (args_of_det _ _ _ A _ _ B) as [<- _] end.
      match goal with [ B : input_of _ [_] _ _ |- _ ] => inversion B; subst end. assumption.
    - intros H. change (Input name [v] []) with (of_sinput (SInput name [v] [])).
      apply parse_input_ok_iff. eapply cmd_ok; [eassumption|eassumption|].
      constructor; [assumption|constructor].
  Qed.
End More.

(** * Fields *)

Lemma fields_concat : forall p s, concat (fields p s) = filter (fun c => negb (p c)) s.
Proof.
  intros p. induction s as [|c s IH]; [reflexivity|].
  rewrite fields_cons. cbn [filter]. destruct (p c) eqn:Hc; cbn [negb]; [exact IH|].
  destruct s as [|d s]; [reflexivity|].
  destruct (p d) eqn:Hd.
  - cbn [concat app]. now rewrite IH.
  - rewrite <- IH. destruct (fields p (d :: s)) as [|f fs] eqn:E; [|reflexivity].
    exfalso. cbn [concat] in IH. cbn [filter] in IH. rewrite Hd in IH. discriminate.
Qed.

Lemma fields_nonempty : forall p s, Forall (fun f => f <> [] /\ none p f) (fields p s).
Proof.
  intros p. induction s as [|c s IH]; [constructor|].
  rewrite fields_cons. destruct (p c) eqn:Hc; [exact IH|].
  assert (Hone : [c] <> [] /\ none p [c]).
  { split; [discriminate|]. intros x [<-|[]]; assumption. }
  destruct s as [|d s]; [now repeat constructor|].
  destruct (p d) eqn:Hd; [now constructor|].
  destruct (fields p (d :: s)) as [|f fs]; [now repeat constructor|].
  inversion IH as [|? ? [_ Hf] Hfs]; subst. constructor; [|assumption].
  split; [discriminate|]. intros x [<-|Hx]; auto.
Qed.

(** * Character roles *)

Section Ext.
  Variables C D : classes.
  Hypothesis Hsp : forall c, sp C c = sp D c.
  Hypothesis Hpar : forall c, par C c = par D c.
  Hypothesis Hquo : forall c, quo C c = quo D c.
  Hypothesis Hlsep : forall c, lsep C c = lsep D c.

  Lemma k_space_ext : forall c, k_space C c = k_space D c.
  Proof. intros c. unfold k_space. now rewrite Hsp. Qed.
  Lemma k_paren_ext : forall c, k_paren C c = k_paren D c.
  Proof. intros c. unfold k_paren. now rewrite Hsp, Hpar. Qed.
  Lemma k_quote_ext : forall c, k_quote C c = k_quote D c.
  Proof. intros c. unfold k_quote. now rewrite Hsp, Hpar, Hquo. Qed.
  Lemma k_word_ext : forall c, k_word C c = k_word D c.
  Proof. intros c. unfold k_word. now rewrite Hsp, Hpar, Hquo. Qed.
  Lemma sep_ext : forall c, sep C c = sep D c.
  Proof. intros c. unfold sep. now rewrite Hsp, Hlsep. Qed.
  Lemma all_ext' : forall p q s, (forall c : byte, p c = q c) -> all p s -> all q s.
  Proof. intros p q s H A c Hc. rewrite <- H. now apply A. Qed.
  Lemma none_ext' : forall p q s, (forall c : byte, p c = q c) -> none p s -> none q s.
  Proof. intros p q s H A c Hc. rewrite <- H. now apply A. Qed.

  Lemma lexes_ext : forall s r, lexes C s r -> lexes D s r.
  Proof.
    intros s r H. induction H.
    - constructor. eapply all_ext'; [exact k_space_ext|assumption].
    - replace (existsb (sep C) w) with (existsb (sep D) w)
        by (induction w; cbn [existsb]; [reflexivity|]; rewrite IHw, sep_ext; [reflexivity|];
            intros x Hx; apply H1; now right).
      constructor; try assumption.
      + eapply all_ext'; [exact k_space_ext|assumption].
      + now rewrite <- k_word_ext.
      + eapply all_ext'; [exact k_word_ext|assumption].
      + destruct rest; [exact I|]. cbn [stops] in *. now rewrite <- k_word_ext.
    - apply lex_assign; try assumption. eapply all_ext'; [exact k_space_ext|assumption].
    - apply lex_quoted; try (rewrite <- k_quote_ext); try assumption.
      + eapply all_ext'; [exact k_space_ext|assumption].
      + eapply none_ext'; [exact k_quote_ext|assumption].
    - apply lex_group; try (rewrite <- k_paren_ext); try assumption.
      + eapply all_ext'; [exact k_space_ext|assumption].
      + eapply none_ext'; [exact k_paren_ext|assumption].
    - apply lex_open_quote; try (rewrite <- k_quote_ext); try assumption.
      + eapply all_ext'; [exact k_space_ext|assumption].
      + eapply none_ext'; [exact k_quote_ext|assumption].
    - apply lex_open_group; try (rewrite <- k_paren_ext); try assumption.
      + eapply all_ext'; [exact k_space_ext|assumption].
      + eapply none_ext'; [exact k_paren_ext|assumption].
  Qed.

  Lemma nquotes_ext : forall s, nquotes C s = nquotes D s.
  Proof.
    intros s. unfold nquotes. induction s as [|c s IH]; [reflexivity|]. cbn [filter].
    rewrite Hquo. destruct (quo D c); cbn [length]; congruence.
  Qed.

  Lemma raw_item_ext : forall s, raw_item C s -> raw_item D s.
  Proof.
    intros s [H1 H2]. split; [assumption|]. intros p c r E Hc. rewrite <- nquotes_ext.
    eapply H2; [eassumption|]. now rewrite sep_ext.
  Qed.

  Lemma item_end_ext : forall s rest, item_end C s rest -> item_end D s rest.
  Proof.
    intros s [|c rest]; cbn [item_end]; [auto|]. intros [H1 H2]. rewrite <- nquotes_ext, <- sep_ext. auto.
  Qed.

  Lemma item_text_ext : forall s t, item_text C s t -> item_text D s t.
  Proof. intros s t H. inversion H; subst; constructor; now rewrite <- Hquo. Qed.

  Lemma splits_ext : forall s items, splits C s items -> splits D s items.
  Proof.
    intros s items H. induction H.
    - constructor. eapply all_ext'; [exact sep_ext|assumption].
    - constructor; auto using raw_item_ext, item_end_ext, item_text_ext.
      eapply all_ext'; [exact sep_ext|assumption].
  Qed.

  Lemma lone_ext : forall s, lone_quote C s -> lone_quote D s.
  Proof.
    intros s H. induction H.
    - apply lone_here; auto using raw_item_ext, item_end_ext.
      + eapply all_ext'; [exact sep_ext|assumption].
      + now rewrite <- Hquo.
    - apply lone_later; auto using raw_item_ext, item_end_ext.
      eapply all_ext'; [exact sep_ext|assumption].
  Qed.

  Lemma has_lone_ext : forall a, has_lone_quote C a -> has_lone_quote D a.
  Proof. intros a (w & H & Hin). exists w. split; [now apply lone_ext|assumption]. Qed.

  Lemma input_of_ext : forall a p n, input_of C a p n -> input_of D a p n.
  Proof.
    assert (V : forall t v, val_of C t v -> val_of D t v).
    { intros t v H. inversion H; subst; constructor. now apply splits_ext. }
    intros a p n H. induction H; constructor; auto.
  Qed.
End Ext.

Lemma command_ext : forall C D,
  (forall c, sp C c = sp D c) -> (forall c, par C c = par D c) ->
  (forall c, quo C c = quo D c) -> (forall c, lsep C c = lsep D c) ->
  forall s r, command C s r -> command D s r.
Proof.
  intros C D H1 H2 H3 H4 s r H. inversion H; subst.
  - apply cmd_empty. eapply lexes_ext; eassumption.
  - apply cmd_lex_error. eapply lexes_ext; eassumption.
  - eapply cmd_first; [eapply lexes_ext; eassumption|assumption].
  - eapply cmd_arg_error; [eapply lexes_ext; eassumption|eassumption|].
    intros Hl. match goal with [ A : ~ _ |- _ ] => apply A end.
    eapply (has_lone_ext D C); auto.
  - eapply cmd_ok; [eapply lexes_ext; eassumption|eassumption|]. eapply input_of_ext; eassumption.
Qed.

Lemma recognised_mem : forall sg c l, (sg = false \/ Forall is_ascii l) ->
  recognised sg c && mem c l = mem c l.
Proof.
  intros sg c l [->|H]; [reflexivity|]. destruct (mem c l) eqn:E; [|apply andb_false_r].
  apply mem_true in E. rewrite Forall_forall in H. specialize (H c E).
  unfold recognised. apply Nat.ltb_lt in H. rewrite H, orb_true_r. reflexivity.
Qed.

Definition ideal (cfg : lexer_cfg) : classes :=
  ideal_classes (m_groupParentheses cfg) (m_quotes cfg) (m_groupSeparators cfg) (m_spaceCharacters cfg).

Lemma ideal_command : forall sg cfg,
  (sg = false \/ Forall is_ascii (m_groupParentheses cfg ++ m_quotes cfg ++
                                  m_groupSeparators cfg ++ m_spaceCharacters cfg)) ->
  forall s r, command (cfg_classes sg cfg) s r <-> command (ideal cfg) s r.
Proof.
  intros sg cfg H s r.
  assert (Hp : sg = false \/ Forall is_ascii (m_groupParentheses cfg))
    by (destruct H as [H|H]; [now left|right; rewrite !Forall_app in H; tauto]).
  assert (Hq : sg = false \/ Forall is_ascii (m_quotes cfg))
    by (destruct H as [H|H]; [now left|right; rewrite !Forall_app in H; tauto]).
  assert (Hs : sg = false \/ Forall is_ascii (m_groupSeparators cfg))
    by (destruct H as [H|H]; [now left|right; rewrite !Forall_app in H; tauto]).
  assert (Hw : sg = false \/ Forall is_ascii (m_spaceCharacters cfg))
    by (destruct H as [H|H]; [now left|right; rewrite !Forall_app in H; tauto]).
  split; apply command_ext; intros c; cbn [cfg_classes classes_of ideal ideal_classes sp par quo lsep];
    rewrite recognised_mem by assumption; reflexivity.
Qed.

(** * The renderer *)

Section Render.
  Variable sg : bool.
  Let C := cfg_classes sg default_cfg.

  Lemma d_quote : k_quote C dquote = true.
  Proof. destruct sg; reflexivity. Qed.
  Lemma d_quo : quo C dquote = true.
  Proof. destruct sg; reflexivity. Qed.
  Lemma d_sep : sep C dquote = false.
  Proof. destruct sg; reflexivity. Qed.
  Lemma d_space : k_space C space = true.
  Proof. destruct sg; reflexivity. Qed.
  Lemma d_space_sep : sep C space = true.
  Proof. destruct sg; reflexivity. Qed.
  Lemma d_open : k_paren C "("%char = true.
  Proof. destruct sg; reflexivity. Qed.
  Lemma d_close : k_paren C ")"%char = true.
  Proof. destruct sg; reflexivity. Qed.

  Lemma mem_false : forall c l, ~ In c l -> mem c l = false.
  Proof. intros c l H. destruct (mem c l) eqn:E; [|reflexivity]. apply mem_true in E. contradiction. Qed.

  Lemma d_no_quotes : forall s, no_quotes s -> none (quo C) s.
  Proof.
    intros s H c Hc. destruct (H c Hc) as [H1 H2].
    cbn [C cfg_classes classes_of quo default_cfg m_quotes].
    rewrite mem_false; [apply andb_false_r|].
    intros [E|[E|[]]]; [apply H2|apply H1]; rewrite <- E; reflexivity.
  Qed.

  Lemma d_no_kquotes : forall s, no_quotes s -> none (k_quote C) s.
  Proof. intros s H c Hc. unfold k_quote. rewrite (d_no_quotes s H c Hc). apply andb_false_r. Qed.

  Lemma d_no_parens : forall s, no_parens s -> none (k_paren C) s.
  Proof.
    intros s H c Hc. destruct (H c Hc) as [H1 H2]. unfold k_paren.
    cbn [C cfg_classes classes_of par default_cfg m_groupParentheses].
    rewrite mem_false; [rewrite !andb_false_r; reflexivity|].
    intros [E|[E|[]]]; [apply H1|apply H2]; rewrite <- E; reflexivity.
  Qed.

  Lemma render_items : forall v, Forall no_quotes v ->
    writes_items C v (flat_map (fun x => in_quotes x ++ [space]) v) /\
    writes_items C v (space :: flat_map (fun x => in_quotes x ++ [space]) v).
  Proof.
    intros v H. induction H as [|x v Hx Hv [IH1 IH2]].
    - split; constructor; [intros c []|]. intros c [<-|[]]. apply d_space_sep.
    - cbn [flat_map].
      assert (W : writes_items C (x :: v)
                    ([] ++ in_quotes x ++ space :: flat_map (fun x => in_quotes x ++ [space]) v)).
      { apply ws_cons.
        - intros c [].
        - apply wi_quoted; [apply d_quo|apply d_sep|apply d_quo|now apply d_no_quotes].
        - apply d_space_sep.
        - exact IH2. }
      assert (W2 : writes_items C (x :: v)
                    ([space] ++ in_quotes x ++ space :: flat_map (fun x => in_quotes x ++ [space]) v)).
      { apply ws_cons.
        - intros c [<-|[]]. apply d_space_sep.
        - apply wi_quoted; [apply d_quo|apply d_sep|apply d_quo|now apply d_no_quotes].
        - apply d_space_sep.
        - exact IH2. }
      rewrite <- app_assoc. split; [exact W|exact W2].
  Qed.

  Definition value_lexeme (v : list bytes) : lexeme :=
    match v with
    | [x] => LQuoted dquote x dquote
    | _ => LGroup "("%char (flat_map (fun x => in_quotes x ++ [space]) v) ")"%char
    end.

  Lemma flat_no_parens : forall v, Forall no_parens v ->
    no_parens (flat_map (fun x => in_quotes x ++ [space]) v).
  Proof.
    intros v H. induction H as [|x v Hx Hv IH]; intros c Hc; [destruct Hc|].
    cbn [flat_map] in Hc. apply in_app_or in Hc. destruct Hc as [Hc|Hc]; [|now apply IH].
    unfold in_quotes in Hc. cbn [app In] in Hc. rewrite !in_app_iff in Hc. cbn [In] in Hc.
    destruct Hc as [<-|[[Hc|[<-|[]]]|[<-|[]]]]; [split; discriminate| |split; discriminate|split; discriminate].
    now apply Hx.
  Qed.

  Lemma render_value_ok : forall v, renderable_value v ->
    writes_value C v (value_lexeme v) /\ lexeme_ok C (value_lexeme v) /\
    lexeme_text (value_lexeme v) = render_value v /\ is_word (value_lexeme v) = false.
  Proof.
    intros v [Hq Hp].
    destruct v as [|x [|y v]].
    - cbn [value_lexeme render_value]. split; [apply wv_group; apply (render_items [] Hq)|].
      split; [|split; reflexivity]. cbn [lexeme_ok flat_map]. split; [apply d_open|].
      split; [intros c []|apply d_close].
    - cbn [value_lexeme render_value]. split; [apply wv_single; constructor|].
      split; [|split; reflexivity]. cbn [lexeme_ok]. inversion Hq; subst.
      split; [apply d_quote|]. split; [now apply d_no_kquotes|apply d_quote].
    - cbn [value_lexeme render_value]. split; [apply wv_group; now apply render_items|].
      split; [|split; reflexivity]. destruct Hp as [Hp|Hp]; [discriminate|]. cbn [lexeme_ok].
      split; [apply d_open|]. split; [|apply d_close].
      apply d_no_parens. now apply flat_no_parens.
  Qed.

  Definition arg_lexemes (a : warg) : list lexeme :=
    match a with
    | WPos v => [value_lexeme v]
    | WNamed k v => [LQuoted dquote k dquote; LAssign; value_lexeme v]
    end.

  Lemma render_args_ok : forall args, Forall renderable_arg args ->
    writes_args C args (flat_map arg_lexemes args) /\
    layout C false (flat_map arg_lexemes args) Closed (flat_map (fun a => space :: render_arg a) args).
  Proof.
    intros args H. induction H as [|a args Ha Hargs [IH1 IH2]].
    - split; [constructor|]. cbn [flat_map]. change (@nil byte) with ([] ++ open_text Closed).
      apply lay_end; [intros c []|exact I].
    - assert (Hsp : all (k_space C) [space]) by (intros c [<-|[]]; apply d_space).
      assert (Hnil : all (k_space C) []) by (intros c []).
      destruct a as [v|k v]; cbn [flat_map arg_lexemes render_arg app].
      + destruct (render_value_ok v Ha) as (W & O & T & N). split; [now constructor|].
        rewrite <- T.
        change (space :: lexeme_text (value_lexeme v) ++ flat_map (fun a => space :: render_arg a) args)
          with ([space] ++ lexeme_text (value_lexeme v) ++ flat_map (fun a => space :: render_arg a) args).
        apply lay_cons; try assumption; [congruence|]. now rewrite N.
      + destruct Ha as [Hk Hv]. destruct (render_value_ok v Hv) as (W & O & T & N).
        split; [constructor; [constructor|assumption|assumption]|].
        rewrite <- T.
        replace (space :: (in_quotes k ++ equals_sign :: lexeme_text (value_lexeme v)) ++
                   flat_map (fun a => space :: render_arg a) args)
          with ([space] ++ lexeme_text (LQuoted dquote k dquote) ++
                ([] ++ lexeme_text LAssign ++
                 ([] ++ lexeme_text (value_lexeme v) ++ flat_map (fun a => space :: render_arg a) args)))
          by (cbn [app lexeme_text]; unfold in_quotes; cbn [app]; rewrite <- !app_assoc; reflexivity).
        apply lay_cons; [assumption| |discriminate|].
        { cbn [lexeme_ok]. split; [apply d_quote|]. split; [now apply d_no_kquotes|apply d_quote]. }
        apply lay_cons; [assumption|exact I|discriminate|].
        apply lay_cons; [assumption|assumption|discriminate|]. now rewrite N.
  Qed.

  Lemma render_writes : forall name args, no_quotes name -> Forall renderable_arg args ->
    writes C name args (render name args).
  Proof.
    intros name args Hn Ha. destruct (render_args_ok args Ha) as [W L].
    exists (LQuoted dquote name dquote), (flat_map arg_lexemes args).
    split; [constructor|]. split; [assumption|].
    change (render name args)
      with ([] ++ lexeme_text (LQuoted dquote name dquote) ++ flat_map (fun a => space :: render_arg a) args).
    apply lay_cons; [intros c []| |discriminate|assumption].
    cbn [lexeme_ok]. split; [apply d_quote|]. split; [now apply d_no_kquotes|apply d_quote].
  Qed.

  Lemma render_parse : forall name args, no_quotes name -> Forall renderable_arg args ->
    parse_input sg default_cfg (render name args) =
      Done (Value (Input name (positional args) (named args))).
  Proof. intros name args Hn Ha. apply writes_parse. now apply render_writes. Qed.
End Render.

(** * Statements used by the property files *)

Lemma parse_views_inside : forall sg cfg cmd vi,
  parse sg cfg cmd = Done (Value vi) ->
  let inside := fun v => v_off v + v_len v <= length cmd in
  inside (vi_name vi) /\
  (forall a, In a (vi_args vi) -> forall v, In v a -> inside v) /\
  (forall k a, In (k, a) (vi_named vi) -> inside k /\ forall v, In v a -> inside v).
Proof.
  intros sg cfg cmd vi H. apply parse_views_ok in H. destruct H as (Hn & Ha & Hk).
  unfold views_ok in *. rewrite Forall_forall in Ha, Hk. split; [exact Hn|]. split.
  - intros a Hin v Hv. specialize (Ha a Hin). rewrite Forall_forall in Ha. exact (Ha v Hv).
  - intros k a Hin. destruct (Hk _ Hin) as [H1 H2]. split; [exact H1|].
    intros v Hv. cbn [snd] in H2. rewrite Forall_forall in H2. exact (H2 v Hv).
Qed.

Lemma lone_quote_iff : forall sg cfg w,
  (forall c, quo (cfg_classes sg cfg) c = true -> sep (cfg_classes sg cfg) c = false) ->
  (lone_quote (cfg_classes sg cfg) w <->
   exists w0 q, w = w0 ++ [q] /\ quo (cfg_classes sg cfg) q = true /\
     Nat.odd (nquotes (cfg_classes sg cfg) w) = true /\
     (w0 = [] \/ exists w1 c, w0 = w1 ++ [c] /\ sep (cfg_classes sg cfg) c = true)).
Proof.
  intros sg cfg w Hd. split.
  - intros H. pose proof (lone_quote_odd sg cfg w Hd H) as Ho.
    destruct (lone_quote_last sg cfg w H) as (w0 & q & E & Hq & Hw). exists w0, q. auto.
  - intros (w0 & q & -> & Hq & Ho & Hw). now apply lone_quote_intro.
Qed.

Lemma lexes_incl : forall C s r, lexes C s r -> forall ts, r = inl ts ->
  forall w, (In (SGrp w) ts \/ In (SStr w) ts) -> forall c, In c w -> In c s.
Proof.
  intros C s r H. induction H; intros ts E w0 Hw d Hd.
  - injection E as <-. destruct Hw as [[]|[]].
  - destruct r as [ts'|]; [|discriminate]. injection E as <-.
    rewrite in_app_iff. cbn [In]. rewrite in_app_iff.
    destruct (existsb (sep C) w); destruct Hw as [[E|Hw]|[E|Hw]];
      try discriminate; try (injection E as <-; cbn [In] in Hd; tauto);
      (right; right; right; eapply IHlexes; eauto).
  - destruct r as [ts'|]; [|discriminate]. injection E as <-.
    rewrite in_app_iff. cbn [In].
    destruct Hw as [[E|Hw]|[E|Hw]]; try discriminate; (right; right; eapply IHlexes; eauto).
  - destruct r as [ts'|]; [|discriminate]. injection E as <-.
    rewrite in_app_iff. cbn [In]. rewrite in_app_iff. cbn [In].
    destruct Hw as [[E|Hw]|[E|Hw]]; try discriminate; try (injection E as <-; tauto);
      (right; right; right; right; eapply IHlexes; eauto).
  - destruct r as [ts'|]; [|discriminate]. injection E as <-.
    rewrite in_app_iff. cbn [In]. rewrite in_app_iff. cbn [In].
    destruct Hw as [[E|Hw]|[E|Hw]]; try discriminate; try (injection E as <-; tauto);
      (right; right; right; right; eapply IHlexes; eauto).
  - discriminate.
  - discriminate.
Qed.

Lemma args_of_tokens : forall ts args st, args_of ts args st ->
  forall t, (In (APos t) args \/ exists k, In (ANamed k t) args) -> In t ts.
Proof.
  intros ts args st H. induction H; intros t0 Hin.
  - destruct Hin as [[]|(k & [])].
  - destruct Hin as [[E|Hin]|(k & [E|Hin])].
    + injection E as <-. now left.
    + right. apply IHargs_of. now left.
    + discriminate.
    + right. apply IHargs_of. right. eauto.
  - destruct Hin as [[E|Hin]|(k' & [E|Hin])].
    + discriminate.
    + right; right; right. apply IHargs_of. now left.
    + injection E as _ <-. right; right; now left.
    + right; right; right. apply IHargs_of. right. eauto.
  - destruct Hin as [[]|(k & [])].
  - destruct Hin as [[]|(k' & [])].
  - destruct Hin as [[]|(k' & [])].
Qed.

Lemma lone_has_quote : forall C w, lone_quote C w -> exists c, In c w /\ quo C c = true.
Proof.
  intros C w H. induction H as [ws q rest Hws Hraw Hend Hq|ws s rest Hws Hraw Hend H (c & Hc & Hq)].
  - exists q. split; [|assumption]. apply in_or_app. right. now left.
  - exists c. split; [|assumption]. apply in_or_app. right. apply in_or_app. now right.
Qed.

Lemma no_quotes_safe : forall sg cfg cmd,
  (forall c, In c cmd -> quo (cfg_classes sg cfg) c = false) ->
  exists r, parse sg cfg cmd = Done r.
Proof.
  intros sg cfg cmd H. destruct (parse sg cfg cmd) as [r|f] eqn:E; [eauto|]. exfalso.
  assert (Hill : ill_command (cfg_classes sg cfg) cmd) by (apply parse_fault_iff; eauto).
  inversion Hill as [s name ts args st Hl Ha (w & Hw & Hin)]; subst.
  assert (Ht : In (SGrp w) ts) by (eapply args_of_tokens; eassumption).
  destruct (lone_has_quote _ _ Hw) as (c & Hc & Hq).
  rewrite H in Hq; [discriminate|].
  eapply lexes_incl; [exact Hl|reflexivity| |exact Hc]. left. now right.
Qed.

Lemma tokenize_accepts_iff : forall sg cfg cmd ts,
  (exists tokens, tokenize sg cfg cmd = Done (Value tokens) /\ map (tok_sem cmd) tokens = ts)
  <-> lexes (cfg_classes sg cfg) cmd (inl ts).
Proof.
  intros sg cfg cmd ts. split.
  - intros (tokens & E & M). destruct (lexes_total sg cfg cmd) as (r & Hr).
    pose proof (tokenize_spec sg cfg cmd r Hr) as T. destruct r as [ts'|e]; cbn [tok_result] in T.
    + destruct T as (v & E' & M' & _). rewrite E in E'. injection E' as E'.
      subst tokens. cbn [app] in M'. rewrite M in M'. now subst ts'.
    + rewrite E in T. discriminate.
  - intros H. pose proof (tokenize_spec sg cfg cmd _ H) as T. cbn [tok_result] in T.
    destruct T as (v & E' & M' & _). exists v. cbn [app] in E'. auto.
Qed.

Lemma tokenize_rejects_iff : forall sg cfg cmd,
  (exists m, tokenize sg cfg cmd = Done (Error m)) <->
  (exists e, lexes (cfg_classes sg cfg) cmd (inr e)).
Proof.
  intros sg cfg cmd. split.
  - intros (m & E). destruct (lexes_total sg cfg cmd) as (r & Hr).
    pose proof (tokenize_spec sg cfg cmd r Hr) as T. destruct r as [ts'|e]; cbn [tok_result] in T.
    + destruct T as (v & E' & _). rewrite E in E'. discriminate.
    + eauto.
  - intros (e & H). pose proof (tokenize_spec sg cfg cmd _ H) as T. cbn [tok_result] in T. eauto.
Qed.

Lemma tokenize_never_faults : forall sg cfg cmd, exists r, tokenize sg cfg cmd = Done r.
Proof.
  intros sg cfg cmd. destruct (lexes_total sg cfg cmd) as (r & Hr).
  pose proof (tokenize_spec sg cfg cmd r Hr) as T. destruct r as [ts'|e]; cbn [tok_result] in T.
  - destruct T as (v & E' & _). eauto.
  - eauto.
Qed.

Lemma lexes_layout : forall C s r, lexes C s r ->
  exists ls o, forall prev, (prev = true -> stops (k_word C) s) -> layout C prev ls o s.
Proof.
  intros C s r H. induction H as
    [ws Hws|ws c w rest r Hws Hc Hw Hst H (ls & o & IH)|ws c rest r Hws Hc H (ls & o & IH)
     |ws q body q' rest r Hws Hq Hb Hq' H (ls & o & IH)|ws q body q' rest r Hws Hq Hb Hq' H (ls & o & IH)
     |ws q body Hws Hq Hb|ws q body Hws Hq Hb].
  - exists [], Closed. intros prev _. rewrite <- (app_nil_r ws). apply (lay_end C prev ws Closed); [assumption|exact I].
  - exists (LWord c w :: ls), o. intros prev Hp.
    change (c :: w ++ rest) with (lexeme_text (LWord c w) ++ rest).
    apply lay_cons; [assumption|split; assumption| |apply IH; auto].
    intros -> _ ->. specialize (Hp eq_refl). cbn in Hp. congruence.
  - exists (LAssign :: ls), o. intros prev Hp.
    assert (c = equals_sign) as -> by (now apply Ascii.eqb_eq).
    change (equals_sign :: rest) with (lexeme_text LAssign ++ rest).
    apply lay_cons; [assumption|exact I|discriminate|]. apply IH. discriminate.
  - exists (LQuoted q body q' :: ls), o. intros prev Hp.
    replace (q :: body ++ q' :: rest) with (lexeme_text (LQuoted q body q') ++ rest)
      by (cbn; now rewrite <- app_assoc).
    apply lay_cons; [assumption|split; auto|discriminate|]. apply IH. discriminate.
  - exists (LGroup q body q' :: ls), o. intros prev Hp.
    replace (q :: body ++ q' :: rest) with (lexeme_text (LGroup q body q') ++ rest)
      by (cbn; now rewrite <- app_assoc).
    apply lay_cons; [assumption|split; auto|discriminate|]. apply IH. discriminate.
  - exists [], (OpenQ q body). intros prev _. apply (lay_end C prev ws (OpenQ q body)); [assumption|split; assumption].
  - exists [], (OpenG q body). intros prev _. apply (lay_end C prev ws (OpenG q body)); [assumption|split; assumption].
Qed.

Lemma layout_total : forall sg cfg s,
  exists lexemes o, layout (cfg_classes sg cfg) false lexemes o s.
Proof.
  intros sg cfg s. destruct (lexes_total sg cfg s) as (r & Hr).
  destruct (lexes_layout _ _ _ Hr) as (ls & o & H). exists ls, o. apply H. discriminate.
Qed.

Lemma quoted_named : forall sg cfg name pre post key ln lpre lk s1 l2 s2 q body q',
  let C := cfg_classes sg cfg in
  writes_text C name ln -> writes_args C pre lpre -> writes_text C key lk ->
  layout C false (ln :: lpre ++ [lk]) Closed s1 ->
  writes_args C post l2 -> layout C false l2 Closed s2 ->
  k_quote C q = true -> none (k_quote C) body -> k_quote C q' = true ->
  parse_input sg cfg (s1 ++ equals_sign :: q :: body ++ q' :: s2) =
    Done (Value (Input name (positional pre ++ positional post) (named pre ++ (key, [body]) :: named post))).
Proof.
  intros sg cfg name pre post key ln lpre lk s1 l2 s2 q body q' C Hn Hpre Hk Hl1 Hpost Hl2 Hq Hb Hq'.
  assert (W : writes C name (pre ++ WNamed key [body] :: post) (s1 ++ equals_sign :: q :: body ++ q' :: s2)).
  { exists ln, (lpre ++ lk :: LAssign :: LQuoted q body q' :: l2). split; [assumption|]. split.
    - apply writes_args_app; [assumption|]. constructor; [assumption|apply wv_single; constructor|assumption].
    - replace (ln :: lpre ++ lk :: LAssign :: LQuoted q body q' :: l2)
        with ((ln :: lpre ++ [lk]) ++ LAssign :: LQuoted q body q' :: l2)
        by (cbn [app]; now rewrite <- app_assoc).
      eapply layout_app with (p := false); [eassumption|reflexivity|reflexivity|].
      replace (equals_sign :: q :: body ++ q' :: s2)
        with ([] ++ lexeme_text LAssign ++ ([] ++ lexeme_text (LQuoted q body q') ++ s2))
        by (cbn; now rewrite <- app_assoc).
      apply lay_cons; [intros c []|exact I|discriminate|].
      apply lay_cons; [intros c []|cbn [lexeme_ok]; auto|discriminate|assumption]. }
  rewrite (writes_parse sg cfg _ _ _ W). rewrite positional_app, named_app. reflexivity.
Qed.

Lemma default_verbatim : forall sg body,
  no_quotes body ->
  parse_input sg default_cfg (lit "f '" ++ body ++ lit "'") = Done (Value (Input (lit "f") [[body]] [])) /\
  parse_input sg default_cfg (lit "f k='" ++ body ++ lit "'") = Done (Value (Input (lit "f") [] [(lit "k", [body])])) /\
  parse_input sg default_cfg (lit "'" ++ body ++ lit "' x") = Done (Value (Input body [[lit "x"]] [])).
Proof.
  intros sg body H.
  set (C := cfg_classes sg default_cfg).
  set (sq := "'"%char).
  assert (Q : k_quote C sq = true) by (destruct sg; reflexivity).
  assert (B : none (k_quote C) body) by now apply d_no_kquotes.
  assert (Sp : all (k_space C) (lit " ")) by (intros c [<-|[]]; destruct sg; reflexivity).
  assert (N : all (k_space C) []) by (intros c []).
  assert (F : lexeme_ok C (LWord "f"%char [])) by (split; [destruct sg; reflexivity|intros c []]).
  assert (K : lexeme_ok C (LWord "k"%char [])) by (split; [destruct sg; reflexivity|intros c []]).
  assert (X : lexeme_ok C (LWord "x"%char [])) by (split; [destruct sg; reflexivity|intros c []]).
  assert (E0 : layout C false [] Closed []) by (apply (lay_end C false [] Closed); [assumption|exact I]).
  assert (E1 : layout C true [] Closed (lit " ")) by (apply (lay_end C true (lit " ") Closed); [assumption|exact I]).
  assert (Et : layout C true [] Closed []) by (apply (lay_end C true [] Closed); [assumption|exact I]).
  assert (Lf : layout C false [LWord "f"%char []] Closed (lit "f ")).
  { change (lit "f ") with ([] ++ lexeme_text (LWord "f"%char []) ++ lit " ").
    apply lay_cons; [assumption|assumption|discriminate|exact E1]. }
  assert (Lfk : layout C false [LWord "f"%char []; LWord "k"%char []] Closed (lit "f k")).
  { change (lit "f k") with ([] ++ lexeme_text (LWord "f"%char []) ++ (lit " " ++ lexeme_text (LWord "k"%char []) ++ [])).
    apply lay_cons; [assumption|assumption|discriminate|].
    apply lay_cons; [assumption|assumption|discriminate|exact Et]. }
  assert (Lx : layout C false [LWord "x"%char []] Closed (lit " x")).
  { change (lit " x") with (lit " " ++ lexeme_text (LWord "x"%char []) ++ []).
    apply lay_cons; [assumption|assumption|discriminate|exact Et]. }
  split; [|split].
  - apply (quoted_argument sg default_cfg (lit "f") [] [] (lit "f ") [] [] sq body sq); try assumption.
    + exists (LWord "f"%char []), []. split; [now constructor|]. split; [constructor|assumption].
    + constructor.
  - apply (quoted_named sg default_cfg (lit "f") [] [] (lit "k") (LWord "f"%char []) [] (LWord "k"%char [])
             (lit "f k") [] [] sq body sq); try assumption; now constructor.
  - apply (quoted_name sg default_cfg [LWord "x"%char []] (lit " x") [WPos [lit "x"]] sq body sq []); try assumption.
    constructor; [|constructor]. apply wv_single. now constructor.
Qed.

Lemma group_split : forall sg cfg name ln c ws p body p' items,
  let C := cfg_classes sg cfg in
  writes_text C name ln -> lexeme_ok C ln -> k_space C c = true -> all (k_space C) ws ->
  k_paren C p = true -> none (k_paren C) body -> k_paren C p' = true ->
  (parse_input sg cfg (lexeme_text ln ++ c :: ws ++ p :: body ++ [p']) =
     Done (Value (Input name [items] [])) <-> splits C body items).
Proof.
  intros sg cfg name ln c ws p body p' items C Hn Hl Hc Hws Hp Hb Hp'.
  pose proof (one_lexeme sg cfg name c (LGroup p body p') ln ws Hn Hl Hc Hws
                (conj Hp (conj Hb Hp')) (SGrp body) eq_refl eq_refl) as L.
  cbn [lexeme_text] in L.
  rewrite (one_value sg cfg _ name (SGrp body) items L eq_refl). split.
  - intros V. now inversion V.
  - intros S. now constructor.
Qed.

Lemma word_compound : forall sg cfg name ln b ws c w items,
  let C := cfg_classes sg cfg in
  writes_text C name ln -> lexeme_ok C ln -> k_space C b = true -> all (k_space C) ws ->
  k_word C c = true -> all (k_word C) w ->
  (parse_input sg cfg (lexeme_text ln ++ b :: ws ++ c :: w) = Done (Value (Input name [items] [])) <->
   if existsb (sep C) w then splits C (c :: w) items else items = [c :: w]).
Proof.
  intros sg cfg name ln b ws c w items C Hn Hl Hb Hws Hc Hw.
  pose proof (one_lexeme sg cfg name b (LWord c w) ln ws Hn Hl Hb Hws (conj Hc Hw)
                (lexeme_tok C (LWord c w)) eq_refl) as L.
  cbn [lexeme_text lexeme_tok] in L. fold C in L.
  destruct (existsb (sep C) w).
  - rewrite (one_value sg cfg _ name _ items (L eq_refl) eq_refl). split.
    + intros V. now inversion V.
    + intros S. now constructor.
  - rewrite (one_value sg cfg _ name _ items (L eq_refl) eq_refl). split.
    + intros V. now inversion V.
    + intros ->. constructor.
Qed.

Lemma word_compound_fields : forall sg cfg name ln b ws c w,
  let C := cfg_classes sg cfg in
  writes_text C name ln -> lexeme_ok C ln -> k_space C b = true -> all (k_space C) ws ->
  k_word C c = true -> all (k_word C) w -> sep C c = false -> none (quo C) (c :: w) ->
  parse_input sg cfg (lexeme_text ln ++ b :: ws ++ c :: w) =
    Done (Value (Input name [fields (sep C) (c :: w)] [])).
Proof.
  intros sg cfg name ln b ws c w C Hn Hl Hb Hws Hc Hw Hs Hq.
  apply word_compound; try assumption. fold C.
  destruct (existsb (sep C) w) eqn:E.
  - now apply fields_splits.
  - rewrite <- (app_nil_r (c :: w)) at 1. rewrite fields_item.
    + reflexivity.
    + discriminate.
    + intros d [<-|Hd]; [assumption|]. destruct (sep C d) eqn:Ed; [|reflexivity].
      rewrite <- E. symmetry. apply existsb_exists. eauto.
    + exact I.
Qed.

Lemma splits_lossless : forall sg cfg w items,
  let C := cfg_classes sg cfg in
  splits C w items ->
  filter (fun c => negb (sep C c) && negb (quo C c)) (concat items) =
  filter (fun c => negb (sep C c) && negb (quo C c)) w.
Proof.
  intros sg cfg w items C H. set (keep := fun c => negb (sep C c) && negb (quo C c)).
  assert (Hw : forall ws, all (sep C) ws -> filter keep ws = []).
  { intros ws Hws. induction ws as [|c ws IH]; [reflexivity|]. cbn [filter].
    unfold keep at 1. rewrite (Hws c) by now left. cbn [negb andb]. apply IH.
    intros d Hd. apply Hws. now right. }
  induction H as [ws Hws|ws s rest t items Hws Hraw Hend Ht H IH].
  - symmetry. now apply Hw.
  - cbn [concat]. rewrite !filter_app, (Hw ws Hws), IH. cbn [app]. f_equal.
    inversion Ht as [q mid q' Hq Hq' E1 E2|c s0 Hc E1 E2|s0 c Hc E1 E2]; subst; try reflexivity.
    cbn [filter]. unfold keep at 2. rewrite Hq, andb_false_r. rewrite filter_app. cbn [filter].
    unfold keep at 3. rewrite Hq', andb_false_r. now rewrite app_nil_r.
Qed.

Lemma splits_empty_item : forall sg cfg w items,
  let C := cfg_classes sg cfg in
  splits C w items -> In [] items ->
  exists a q q' b, w = a ++ q :: q' :: b /\ quo C q = true /\ quo C q' = true.
Proof.
  intros sg cfg w items C H Hin.
  induction H as [ws Hws|ws s rest t items Hws Hraw Hend Ht H IH]; [destruct Hin|].
  destruct Hin as [->|Hin].
  - inversion Ht as [q mid q' Hq Hq' E1 E2|c s0 Hc E1 E2|s0 c Hc E1 E2]; subst.
    + exists ws, q, q', rest. auto.
    + destruct s0; discriminate.
  - destruct (IH Hin) as (a & q & q' & b & -> & Hq & Hq').
    exists (ws ++ s ++ a), q, q', b. split; [now rewrite <- !app_assoc|auto].
Qed.

Lemma configured_characters_refuted : exists cfg cmd i,
  command (ideal cfg) cmd (inl i) /\
  parse_input true cfg cmd <> Done (Value (Input (s_name i) (s_args i) (s_named i))).
Proof.
  set (g := ascii_of_nat 171).
  exists (LexerCfg (lit "()") [g] (lit ",") (lit " ")), (lit "f " ++ g :: lit "a b" ++ [g]),
         (SInput (lit "f") [[lit "a b"]] []).
  split.
  - refine (proj1 (ideal_command false _ (or_introl eq_refl) _ _) _).
    apply parse_input_ok_iff. vm_compute. reflexivity.
  - vm_compute. discriminate.
Qed.
