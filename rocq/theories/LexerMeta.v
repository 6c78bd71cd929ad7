(** Consequences of the correspondence between the lexer and its specification. *)
From Coq Require Import Ascii String NArith ZArith Bool PeanoNat Lia List.
Import ListNotations.
From Verif Require Import Util Base Lexer LexerSpec LexerProofs.

Section Meta.
  Variable sg : bool.
  Variable cfg : lexer_cfg.
  Let C := cfg_classes sg cfg.

  (** * Determinism *)

  Lemma lex_message_inj : forall e1 e2, message (ELex e1) = message (ELex e2) -> e1 = e2.
  Proof.
    intros [c|c] [d|d] H; cbn in H; injection H; intros; subst; try reflexivity; discriminate.
  Qed.

  Lemma lexes_det : forall s r1 r2, lexes C s r1 -> lexes C s r2 -> r1 = r2.
  Proof.
    intros s r1 r2 H1 H2.
    apply tokenize_spec in H1. apply tokenize_spec in H2.
    destruct r1 as [t1|e1], r2 as [t2|e2]; cbn [tok_result] in *.
    - destruct H1 as (v1 & E1 & M1 & _), H2 as (v2 & E2 & M2 & _).
      rewrite E1 in E2. injection E2 as <-. congruence.
    - destruct H1 as (v1 & E1 & M1 & _). congruence.
    - destruct H2 as (v2 & E2 & M2 & _). congruence.
    - rewrite H1 in H2. injection H2 as H2. f_equal. apply lex_message_inj. exact H2.
  Qed.

  Lemma splits_det : forall s a b, splits C s a -> splits C s b -> a = b.
  Proof.
    intros s a b Ha Hb.
    pose proof (splitGroup_spec sg cfg s (whole s) a (whole_in_view s)) as H1.
    pose proof (splitGroup_spec sg cfg s (whole s) b (whole_in_view s)) as H2.
    rewrite whole_bytes in H1, H2.
    destruct (H1 Ha) as (u1 & E1 & M1 & _). destruct (H2 Hb) as (u2 & E2 & M2 & _).
    rewrite E1 in E2. injection E2 as <-. congruence.
  Qed.

  Lemma splits_not_lone : forall s a, splits C s a -> lone_quote C s -> False.
  Proof.
    intros s a Ha Hb.
    pose proof (splitGroup_spec sg cfg s (whole s) a (whole_in_view s)) as H1.
    pose proof (splitGroup_lone sg cfg s (whole s) (whole_in_view s)) as H2.
    rewrite whole_bytes in H1, H2. fold C in H1, H2.
    destruct (H1 Ha) as (u1 & E1 & _). rewrite (H2 Hb) in E1. discriminate.
  Qed.

  (** * parse_input *)

  Lemma parse_input_command : forall cmd r, command C cmd r ->
    parse_input sg cfg cmd =
      Done (match r with inl i => Value (of_sinput i) | inr e => Error (message e) end).
  Proof.
    intros cmd r H. apply parse_command in H. unfold parse_input.
    destruct r as [i|e].
    - destruct H as (vi & E & _ & R). rewrite E. cbn [bind]. now rewrite R.
    - rewrite H. reflexivity.
  Qed.

  Lemma parse_input_ill : forall cmd, ill_command C cmd ->
    parse_input sg cfg cmd = Fault AssertFailed.
  Proof. intros cmd H. unfold parse_input. rewrite parse_ill by assumption. reflexivity. Qed.

  Lemma of_sinput_inj : forall a b, of_sinput a = of_sinput b -> a = b.
  Proof. intros [n a k] [n' a' k'] H. injection H as -> -> ->. reflexivity. Qed.

  Lemma of_sinput_surj : forall i, exists a, i = of_sinput a.
  Proof. intros [n a k]. exists (SInput n a k). reflexivity. Qed.

  Lemma parse_input_ok_iff : forall cmd i,
    parse_input sg cfg cmd = Done (Value (of_sinput i)) <-> command C cmd (inl i).
  Proof.
    intros cmd i. split.
    - intros H. destruct (command_total sg cfg cmd) as [(r & Hr)|Hill].
      + pose proof (parse_input_command _ _ Hr) as E. rewrite H in E.
        destruct r as [i'|e]; [|discriminate]. assert (E' : of_sinput i = of_sinput i') by congruence.
        apply of_sinput_inj in E'. now subst.
      + rewrite (parse_input_ill _ Hill) in H. discriminate.
    - intros H. apply (parse_input_command _ _ H).
  Qed.

  Lemma parse_input_error_iff : forall cmd m,
    parse_input sg cfg cmd = Done (Error m) <-> exists e, command C cmd (inr e) /\ m = message e.
  Proof.
    intros cmd m. split.
    - intros H. destruct (command_total sg cfg cmd) as [(r & Hr)|Hill].
      + pose proof (parse_input_command _ _ Hr) as E. rewrite H in E.
        destruct r as [i'|e]; [discriminate|]. injection E as E. eauto.
      + rewrite (parse_input_ill _ Hill) in H. discriminate.
    - intros (e & H & ->). apply (parse_input_command _ _ H).
  Qed.

  Lemma parse_input_fault_iff : forall cmd,
    (exists f, parse_input sg cfg cmd = Fault f) <-> ill_command C cmd.
  Proof.
    intros cmd. split.
    - intros (f & H). destruct (command_total sg cfg cmd) as [(r & Hr)|Hill]; [|assumption].
      rewrite (parse_input_command _ _ Hr) in H. discriminate.
    - intros H. exists AssertFailed. now apply parse_input_ill.
  Qed.

  Lemma parse_fault_iff : forall cmd,
    (exists f, parse sg cfg cmd = Fault f) <-> ill_command C cmd.
  Proof.
    intros cmd. split.
    - intros (f & H). apply parse_input_fault_iff. exists f. unfold parse_input. now rewrite H.
    - intros H. exists AssertFailed. now apply parse_ill.
  Qed.

  Lemma parse_views_ok : forall cmd vi, parse sg cfg cmd = Done (Value vi) -> vinput_ok cmd vi.
  Proof.
    intros cmd vi H. destruct (command_total sg cfg cmd) as [(r & Hr)|Hill].
    - apply parse_command in Hr. destruct r as [i|e].
      + destruct Hr as (vi' & E & Hok & _). rewrite H in E. now injection E as <-.
      + rewrite H in Hr. discriminate.
    - apply parse_ill in Hill. rewrite H in Hill. discriminate.
  Qed.

  Lemma command_transfer : forall s s' r x,
    lexes C s r -> lexes C s' r -> command C s x -> command C s' x.
  Proof.
    intros s s' r x Hs Hs' H.
    inversion H as [? Hl|? ? Hl|? ? ? Hl Ht|? ? ? ? ? Hl Ha Hno|? ? ? ? ? ? Hl Ha Hi]; subst;
      assert (E := lexes_det _ _ _ Hs Hl); subst r.
    - now apply cmd_empty.
    - now apply cmd_lex_error.
    - eapply cmd_first; eassumption.
    - eapply cmd_arg_error; eassumption.
    - eapply cmd_ok; eassumption.
  Qed.

  Lemma ill_transfer : forall s s' r,
    lexes C s r -> lexes C s' r -> ill_command C s -> ill_command C s'.
  Proof.
    intros s s' r Hs Hs' H. inversion H as [? ? ? ? ? Hl Ha Hlone]; subst.
    assert (E := lexes_det _ _ _ Hs Hl); subst r. econstructor; eassumption.
  Qed.

  Lemma parse_input_tokens : forall s s' r,
    lexes C s r -> lexes C s' r -> parse_input sg cfg s = parse_input sg cfg s'.
  Proof.
    intros s s' r Hs Hs'. destruct (command_total sg cfg s) as [(x & Hx)|Hill].
    - rewrite (parse_input_command _ _ Hx).
      now rewrite (parse_input_command _ _ (command_transfer _ _ _ _ Hs Hs' Hx)).
    - rewrite (parse_input_ill _ Hill).
      now rewrite (parse_input_ill _ (ill_transfer _ _ _ Hs Hs' Hill)).
  Qed.

  (** * Layouts *)

  Definition open_result (o : open_end) : list stok + lex_error :=
    match o with Closed => inl [] | OpenQ q _ => inr (OpenQuote q) | OpenG p _ => inr (OpenGroup p) end.

  Definition layout_result (ls : list lexeme) (o : open_end) : list stok + lex_error :=
    fold_right (fun l r => cons_tok (lexeme_tok C l) r) (open_result o) ls.

  Lemma nonword : forall c,
    (k_space C c = true \/ k_assign c = true \/ k_quote C c = true \/ k_paren C c = true) ->
    k_word C c = false.
  Proof.
    intros c [H|[H|[H|H]]]; unfold k_word, k_space, k_paren, k_quote in *;
      destruct (k_assign c), (sp C c), (par C c), (quo C c); cbn in *; congruence.
  Qed.

  Lemma k_assign_equals : k_assign equals_sign = true.
  Proof. reflexivity. Qed.

  Lemma layout_stops : forall ls o s, layout C true ls o s -> stops (k_word C) s.
  Proof.
    intros ls o s H. inversion H as [prev ws o' Hws Ho|prev ws l ls' o' s' Hws Hl Hsep Hrest]; subst.
    - destruct ws as [|c ws].
      + destruct o as [|q body|p body]; cbn in *; [exact I| |]; apply nonword; tauto.
      + cbn. apply nonword. left. apply Hws. now left.
    - destruct ws as [|c ws].
      + destruct l as [c w| |q body q'|p body p']; cbn in *.
        * exfalso. apply Hsep; reflexivity.
        * reflexivity.
        * apply nonword. tauto.
        * apply nonword. tauto.
      + cbn. apply nonword. left. apply Hws. now left.
  Qed.

  Lemma layout_lexes : forall prev ls o s, layout C prev ls o s -> lexes C s (layout_result ls o).
  Proof.
    intros prev ls o s H.
    induction H as [prev ws o Hws Ho|prev ws l ls o s Hws Hl Hsep Hrest IH].
    - destruct o as [|q body|p body]; cbn in *.
      + rewrite app_nil_r. now constructor.
      + apply lex_open_quote; tauto.
      + apply lex_open_group; tauto.
    - cbn [layout_result fold_right]. fold (layout_result ls o).
      destruct l as [c w| |q body q'|p body p']; cbn [lexeme_text lexeme_tok app].
      + destruct Hl as [Hc Hw]. cbn [is_word] in Hrest.
        apply (lex_word C ws c w s (layout_result ls o) Hws Hc Hw); [|exact IH].
        eapply layout_stops. eassumption.
      + apply lex_assign; try assumption. reflexivity.
      + cbn in Hl. replace ((body ++ [q']) ++ s) with (body ++ q' :: s) by (rewrite <- app_assoc; reflexivity).
        apply lex_quoted; tauto.
      + cbn in Hl. replace ((body ++ [p']) ++ s) with (body ++ p' :: s) by (rewrite <- app_assoc; reflexivity).
        apply lex_group; tauto.
  Qed.

  Lemma layout_parse : forall prev prev' ls o s s',
    layout C prev ls o s -> layout C prev' ls o s' ->
    parse_input sg cfg s = parse_input sg cfg s'.
  Proof.
    intros prev prev' ls o s s' H H'. apply layout_lexes in H. apply layout_lexes in H'.
    eapply parse_input_tokens; eassumption.
  Qed.

  (** * Writing commands *)

  Lemma nquotes_app : forall a b, nquotes C (a ++ b) = nquotes C a + nquotes C b.
  Proof. intros a b. unfold nquotes. now rewrite filter_app, app_length. Qed.

  Lemma nquotes_none : forall s, none (quo C) s -> nquotes C s = 0.
  Proof.
    intros s H. unfold nquotes. induction s as [|c s IH]; [reflexivity|].
    cbn [filter]. rewrite (H c) by now left. apply IH. intros x Hx. apply H. now right.
  Qed.

  Lemma writes_item_raw : forall s text, writes_item C s text ->
    raw_item C text /\ item_text C text s /\ Nat.odd (nquotes C text) = false.
  Proof.
    intros s text H. destruct H as [s Hne Hsep Hq|q s q' Hq Hsq Hq' Hs].
    - split; [|split].
      + split; [assumption|]. intros p c r E Hc. exfalso.
        assert (Hin : In c s) by (rewrite E; apply in_or_app; right; now left).
        rewrite (Hsep c Hin) in Hc. discriminate.
      + destruct s as [|c s]; [congruence|]. apply it_plain_first. apply Hq. now left.
      + now rewrite (nquotes_none s Hq).
    - split; [|split].
      + split; [discriminate|]. intros p c r E Hc.
        destruct p as [|x p].
        { cbn in E. injection E as <- _. congruence. }
        cbn in E. injection E as <- E.
        assert (Hp : none (quo C) p).
        { intros y Hy. destruct (quo C y) eqn:Hyq; [|reflexivity]. exfalso.
          assert (Hin : In y (s ++ [q'])) by (rewrite E; apply in_or_app; now left).
          (* y occurs in the proper prefix, which is inside s *)
          apply in_split in Hy. destruct Hy as (p1 & p2 & ->).
          assert (Hlen : length (p1 ++ y :: p2) < length (s ++ [q'])).
          { rewrite E, (app_length (p1 ++ y :: p2)). cbn. lia. }
          assert (Hy2 : In y s).
          { assert (F : firstn (length s) (s ++ [q']) = s) by apply firstn_length_app.
            rewrite E in F. rewrite <- F.
            rewrite firstn_app. apply in_or_app. left.
            rewrite firstn_all2; [apply in_or_app; right; now left|].
            rewrite (app_length s) in Hlen. cbn in Hlen. lia. }
          rewrite (Hs y Hy2) in Hyq. discriminate. }
        change (q :: p) with ([q] ++ p). rewrite nquotes_app, (nquotes_none p Hp).
        unfold nquotes. cbn [filter]. rewrite Hq. reflexivity.
      + constructor; assumption.
      + change (q :: s ++ [q']) with ([q] ++ s ++ [q']).
        rewrite !nquotes_app, (nquotes_none s Hs). unfold nquotes. cbn [filter]. rewrite Hq, Hq'. reflexivity.
  Qed.

  Lemma writes_items_splits : forall items text, writes_items C items text -> splits C text items.
  Proof.
    intros items text H. induction H as [ws Hws|ws item text items rest Hws Hi Hr Hrest IH].
    - now constructor.
    - destruct (writes_item_raw _ _ Hi) as (H1 & H2 & H3).
      apply splits_cons; try assumption.
      destruct rest; cbn in *; auto.
  Qed.

  Lemma writes_text_tok : forall v l, writes_text C v l -> lexeme_tok C l = SStr v.
  Proof. intros v l H. destruct H as [c w Hw|q body q']; cbn; [now rewrite Hw|reflexivity]. Qed.

  Lemma writes_value_tok : forall v l, writes_value C v l -> val_of C (lexeme_tok C l) v.
  Proof.
    intros v l H. destruct H as [v l Hl|items p body p' Hi|items c w Hw Hi].
    - rewrite (writes_text_tok v l Hl). constructor.
    - cbn. constructor. now apply writes_items_splits.
    - cbn. rewrite Hw. constructor. now apply writes_items_splits.
  Qed.

  Lemma val_not_assign : forall t v, val_of C t v -> is_assign t = false.
  Proof. intros t v H. destruct H; reflexivity. Qed.

  Lemma writes_args_spec : forall args ls, writes_args C args ls ->
    next_is_assign (map (lexeme_tok C) ls) = false /\
    exists sargs, args_of (map (lexeme_tok C) ls) sargs None /\
                  input_of C sargs (positional args) (named args).
  Proof.
    intros args ls H. induction H as [|v l args ls Hv Hargs (Hn & sargs & Ha & Hi)
                                      |k v lk l args ls Hk Hv Hargs (Hn & sargs & Ha & Hi)].
    - split; [reflexivity|]. exists []. split; constructor.
    - apply writes_value_tok in Hv. split.
      + cbn [map]. pose proof (val_not_assign _ _ Hv) as Hna.
        destruct (lexeme_tok C l); [reflexivity|reflexivity|discriminate].
      + exists (APos (lexeme_tok C l) :: sargs). cbn [map positional named flat_map app]. split.
        * apply args_pos; try assumption. eapply val_not_assign; eassumption.
        * apply io_pos; assumption.
    - apply writes_value_tok in Hv. apply writes_text_tok in Hk. split.
      + cbn [map]. rewrite Hk. reflexivity.
      + exists (ANamed k (lexeme_tok C l) :: sargs). cbn [map positional named flat_map app lexeme_tok].
        split.
        * rewrite Hk. apply args_named; try assumption; [constructor|].
          eapply val_not_assign; eassumption.
        * apply io_named; assumption.
  Qed.

  Lemma layout_result_closed : forall ls, layout_result ls Closed = inl (map (lexeme_tok C) ls).
  Proof. induction ls as [|l ls IH]; [reflexivity|]. cbn. unfold layout_result in IH. cbn in IH.
         rewrite IH. reflexivity. Qed.

  Lemma writes_parse : forall name args s, writes C name args s ->
    parse_input sg cfg s = Done (Value (Input name (positional args) (named args))).
  Proof.
    intros name args s (ln & ls & Hn & Ha & Hl).
    apply layout_lexes in Hl. rewrite layout_result_closed in Hl. cbn [map] in Hl.
    rewrite (writes_text_tok _ _ Hn) in Hl.
    destruct (writes_args_spec _ _ Ha) as (_ & sargs & Hargs & Hi).
    apply (parse_input_command s (inl (SInput name (positional args) (named args)))).
    eapply cmd_ok; eassumption.
  Qed.

  (** * Compound values without quotes *)

  Lemma fields_sep : forall (p : byte -> bool) ws s, all p ws -> fields p (ws ++ s) = fields p s.
  Proof.
    induction ws as [|c ws IH]; intros s H; [reflexivity|].
    cbn. rewrite (H c) by now left. apply IH. intros x Hx. apply H. now right.
  Qed.

  Lemma fields_cons : forall (p : byte -> bool) c r,
    fields p (c :: r) =
      if p c then fields p r
      else match r with
           | [] => [[c]]
           | d :: _ => if p d then [c] :: fields p r
                       else match fields p r with
                            | f :: fs => (c :: f) :: fs
                            | [] => [[c]]
                            end
           end.
  Proof. reflexivity. Qed.

  Lemma fields_item : forall (p : byte -> bool) s rest, s <> [] -> none p s ->
    match rest with [] => True | c :: _ => p c = true end ->
    fields p (s ++ rest) = s :: fields p rest.
  Proof.
    induction s as [|c s IH]; intros rest Hne Hs Hr; [congruence|].
    cbn [app]. rewrite fields_cons. rewrite (Hs c) by now left.
    destruct s as [|d s].
    - cbn [app]. destruct rest as [|x rest]; [reflexivity|]. rewrite Hr. reflexivity.
    - cbn [app]. rewrite (Hs d) by (right; now left).
      change (d :: s ++ rest) with ((d :: s) ++ rest).
      rewrite (IH rest); [reflexivity|discriminate| |assumption].
      intros x Hx. apply Hs. now right.
  Qed.

  Lemma splits_fields : forall s items, splits C s items -> none (quo C) s ->
    items = fields (sep C) s.
  Proof.
    intros s items H. induction H as [ws Hws|ws s rest t items Hws Hraw Hend Ht H IH]; intros Hq.
    - rewrite <- (app_nil_r ws), fields_sep by assumption. reflexivity.
    - assert (Hqs : none (quo C) s).
      { intros c Hc. apply Hq. apply in_or_app. right. apply in_or_app. now left. }
      assert (Hqr : none (quo C) rest).
      { intros c Hc. apply Hq. apply in_or_app. right. apply in_or_app. now right. }
      rewrite fields_sep by assumption. rewrite fields_item.
      + f_equal; [|apply IH; assumption].
        inversion Ht as [q mid q' Hq1 Hq2|c0 s0 Hc0|s0 c0 Hc0]; subst; try reflexivity.
        rewrite (Hqs q) in Hq1 by now left. discriminate.
      + apply Hraw.
      + intros c Hc. destruct (sep C c) eqn:Hsc; [|reflexivity]. exfalso.
        apply in_split in Hc. destruct Hc as (p & r & ->).
        destruct Hraw as [_ Hraw]. specialize (Hraw p c r eq_refl Hsc).
        rewrite nquotes_none in Hraw; [discriminate|].
        intros x Hx. apply Hqs. apply in_or_app. now left.
      + destruct rest; cbn in *; tauto.
  Qed.

  Lemma fields_splits : forall s, none (quo C) s -> splits C s (fields (sep C) s).
  Proof.
    intros s Hq. destruct (splits_total sg cfg s) as [(items & H)|H].
    - now rewrite <- (splits_fields s items H Hq).
    - exfalso. induction H as [ws q rest Hws Hraw Hend Hqq|ws s rest Hws Hraw Hend H IH].
      + rewrite Hq in Hqq; [discriminate|]. apply in_or_app. right. now left.
      + apply IH. intros c Hc. apply Hq. apply in_or_app. right. apply in_or_app. now right.
  Qed.

  (** * Where lone quotes can be *)

  Lemma lone_quote_last : forall w, lone_quote C w ->
    exists w0 q, w = w0 ++ [q] /\ quo C q = true /\
                 (w0 = [] \/ exists w1 c, w0 = w1 ++ [c] /\ sep C c = true).
  Proof.
    intros w H. induction H as [ws q rest Hws Hraw Hend Hq|ws s rest Hws Hraw Hend H IH].
    - assert (rest = []) as ->.
      { destruct rest as [|c rest]; [reflexivity|]. destruct Hend as [_ He].
        unfold nquotes in He. cbn [filter] in He. rewrite Hq in He. discriminate. }
      exists ws, q. split; [reflexivity|]. split; [assumption|].
      destruct ws as [|c ws] using rev_ind; [now left|]. right. exists ws, c. split; [reflexivity|].
      apply Hws. apply in_or_app. right. now left.
    - destruct IH as (w0 & q & -> & Hq & Hw0). exists (ws ++ s ++ w0), q.
      split; [now rewrite !app_assoc|]. split; [assumption|]. right.
      destruct Hw0 as [->|(w1 & c & -> & Hc)].
      + cbn in Hend. exfalso. destruct Hend as [Hs _].
        inversion H as [ws' q' rest' Hws' Hraw' Hend' Hq' E|ws' s' rest' Hws' Hraw' Hend' H' E].
        * destruct ws' as [|x ws'].
          -- cbn in E. injection E as -> _. apply raw_item_head in Hraw'. fold C in Hraw'. congruence.
          -- cbn in E. injection E as _ E. destruct ws'; discriminate.
        * destruct ws' as [|x ws'].
          -- destruct s' as [|y s']; [destruct Hraw'; congruence|].
             cbn in E. injection E as -> _. apply raw_item_head in Hraw'. fold C in Hraw'. congruence.
          -- cbn in E. injection E as _ E. destruct s'; [destruct Hraw'; congruence|]. destruct ws'; discriminate.
      + exists (ws ++ s ++ w1), c. split; [now rewrite !app_assoc|assumption].
  Qed.

  Lemma lone_quote_odd : forall w, (forall c, quo C c = true -> sep C c = false) ->
    lone_quote C w -> Nat.odd (nquotes C w) = true.
  Proof.
    intros w Hdis H.
    assert (Hsepq : forall ws, all (sep C) ws -> nquotes C ws = 0).
    { intros ws Hws. apply nquotes_none. intros c Hc. specialize (Hws c Hc).
      destruct (quo C c) eqn:E; [|reflexivity]. rewrite (Hdis c E) in Hws. discriminate. }
    induction H as [ws q rest Hws Hraw Hend Hq|ws s rest Hws Hraw Hend H IH].
    - assert (rest = []) as ->.
      { destruct rest as [|c rest]; [reflexivity|]. destruct Hend as [_ He].
        unfold nquotes in He. cbn [filter] in He. rewrite Hq in He. discriminate. }
      rewrite nquotes_app, Hsepq by assumption. unfold nquotes. cbn [filter]. now rewrite Hq.
    - rewrite !nquotes_app, (Hsepq ws) by assumption. cbn [Nat.add].
      rewrite Nat.odd_add, IH.
      destruct rest as [|c rest]; [|destruct Hend as [_ ->]; reflexivity].
      cbn in IH. discriminate.
  Qed.

  Lemma lone_quote_intro : forall w0 q, (forall c, quo C c = true -> sep C c = false) ->
    quo C q = true -> Nat.odd (nquotes C (w0 ++ [q])) = true ->
    (w0 = [] \/ exists w1 c, w0 = w1 ++ [c] /\ sep C c = true) ->
    lone_quote C (w0 ++ [q]).
  Proof.
    intros w0 q Hdis Hq Hodd Hw0.
    destruct (splits_total sg cfg (w0 ++ [q])) as [(items & H)|H]; [|exact H]. exfalso. fold C in H.
    remember (w0 ++ [q]) as w eqn:Ew. revert w0 Ew Hw0 Hodd.
    induction H as [ws Hws|ws s rest t items Hws Hraw Hend Ht H IH]; intros w0 Ew Hw0 Hodd.
    - assert (Hin : In q ws) by (rewrite Ew; apply in_or_app; right; now left).
      specialize (Hws q Hin). rewrite (Hdis q Hq) in Hws. discriminate.
    - destruct rest as [|c rest].
      + (* the quote ends this item *)
        rewrite app_nil_r in Ew.
        destruct s as [|x s] using rev_ind; [destruct Hraw; congruence|]. clear IHs.
        rewrite app_assoc in Ew. apply app_inj_tail in Ew. destruct Ew as [Ew ->].
        rewrite <- Ew in Hw0. rewrite app_nil_r in Hodd.
        assert (Hsepq : nquotes C ws = 0).
        { apply nquotes_none. intros c Hc. specialize (Hws c Hc).
          destruct (quo C c) eqn:E; [|reflexivity]. rewrite (Hdis c E) in Hws. discriminate. }
        rewrite nquotes_app, Hsepq in Hodd. cbn [Nat.add] in Hodd.
        rewrite nquotes_app in Hodd.
        assert (Hq1 : nquotes C [q] = 1) by (unfold nquotes; cbn [filter]; now rewrite Hq).
        rewrite Hq1, Nat.odd_add in Hodd. cbn in Hodd.
        assert (Heven : Nat.odd (nquotes C s) = false)
          by (destruct (Nat.odd (nquotes C s)); [discriminate|reflexivity]).
        assert (s = []) as ->.
        { destruct s as [|y s] using rev_ind; [reflexivity|]. clear IHs. exfalso.
          destruct Hw0 as [E|(w1 & c & E & Hc)].
          - apply app_eq_nil in E. destruct E as [_ E]. destruct s; discriminate.
          - rewrite app_assoc in E. apply app_inj_tail in E. destruct E as [_ ->].
            destruct Hraw as [_ Hraw].
            specialize (Hraw s c [q]). rewrite <- app_assoc in Hraw. specialize (Hraw eq_refl Hc).
            rewrite nquotes_app in Heven.
            assert (Hc0 : nquotes C [c] = 0).
            { unfold nquotes. cbn [filter]. destruct (quo C c) eqn:E2; [|reflexivity].
              rewrite (Hdis c E2) in Hc. discriminate. }
            rewrite Hc0, Nat.add_0_r in Heven. congruence. }
        cbn in Ht. inversion Ht as [q1 mid q2 H1 H2 E|c0 s0 Hc0 E|s0 c0 Hc0 E].
        * destruct mid; discriminate.
        * congruence.
        * destruct s0 as [|? [|]]; cbn in E; try discriminate. injection E as ->. congruence.
      + (* further on *)
        destruct Hend as [Hc He].
        assert (Hne : c :: rest <> []) by discriminate.
        destruct (exists_last Hne) as (r0 & z & Er). rewrite Er in *.
        rewrite !app_assoc in Ew. apply app_inj_tail in Ew. destruct Ew as [Ew ->].
        apply (IH r0 eq_refl).
        * destruct r0 as [|y r0] using rev_ind; [now left|]. right. clear IHr0.
          destruct Hw0 as [->|(w1 & x & -> & Hx)].
          -- apply app_eq_nil in Ew. destruct Ew as [_ E]. destruct r0; discriminate.
          -- rewrite app_assoc in Ew. apply app_inj_tail in Ew. destruct Ew as [_ ->].
             exists r0, x. auto.
        * assert (Hsepq : nquotes C ws = 0).
          { apply nquotes_none. intros x Hx. specialize (Hws x Hx).
            destruct (quo C x) eqn:E; [|reflexivity]. rewrite (Hdis x E) in Hws. discriminate. }
          rewrite !nquotes_app, Hsepq in Hodd. cbn [Nat.add] in Hodd.
          rewrite Nat.odd_add, He in Hodd. rewrite nquotes_app.
          destruct (Nat.odd (nquotes C r0 + nquotes C [q])); [reflexivity|discriminate].
  Qed.
End Meta.
