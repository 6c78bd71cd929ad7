(** Proofs relating the lexer model to its specification. *)
From Coq Require Import Ascii String NArith ZArith Bool PeanoNat Lia List.
Import ListNotations.
From Verif Require Import Util Base Lexer LexerSpec.

Definition cfg_classes (sg : bool) (cfg : lexer_cfg) : classes :=
  classes_of sg (m_groupParentheses cfg) (m_quotes cfg) (m_groupSeparators cfg)
             (m_spaceCharacters cfg).

(** * Characters *)

Lemma uchar_lt : forall c, (uchar c < 256)%N.
Proof. intros c. unfold uchar. apply N_ascii_bounded. Qed.

Lemma uchar_inj : forall a b, uchar a = uchar b -> a = b.
Proof.
  intros a b H. rewrite <- (ascii_N_embedding a), <- (ascii_N_embedding b).
  unfold uchar in H. now rewrite H.
Qed.

Lemma nat_of_ascii_uchar : forall c, nat_of_ascii c = N.to_nat (uchar c).
Proof. reflexivity. Qed.

Lemma mem_true : forall c l, mem c l = true <-> In c l.
Proof. intros c l. unfold mem. destruct (in_dec ascii_dec c l); split; intuition congruence. Qed.

Lemma char_val_match : forall sg e c,
  char_val sg e = Z.of_N (uchar c) <-> (recognised sg c = true /\ e = c).
Proof.
  intros sg e c. unfold char_val, recognised.
  pose proof (uchar_lt e) as He. pose proof (uchar_lt c) as Hc.
  rewrite nat_of_ascii_uchar.
  destruct sg; cbn [negb andb orb].
  - destruct (Z.leb_spec 128 (Z.of_N (uchar e))).
    + split; [lia|]. intros [H1 ->]. apply Nat.ltb_lt in H1. lia.
    + split.
      * intros H1. assert (uchar e = uchar c) by lia. split.
        -- apply Nat.ltb_lt. lia.
        -- now apply uchar_inj.
      * intros [_ ->]. reflexivity.
  - split.
    + intros H. split; [reflexivity|]. apply uchar_inj. lia.
    + intros [_ ->]. reflexivity.
Qed.

Lemma found_spec : forall sg l c, found sg l c = recognised sg c && mem c l.
Proof.
  intros sg l c. unfold found. apply Bool.eq_iff_eq_true.
  rewrite existsb_exists, andb_true_iff, mem_true. split.
  - intros (e & Hin & He). apply Z.eqb_eq in He. apply char_val_match in He.
    destruct He as [H1 ->]. auto.
  - intros [H1 H2]. exists c. split; [assumption|]. apply Z.eqb_eq.
    apply char_val_match. auto.
Qed.

Section Proofs.
  Variable sg : bool.
  Variable cfg : lexer_cfg.
  Let C := cfg_classes sg cfg.

  Lemma isSpace_sp : forall c, isSpace sg cfg c = sp C c.
  Proof. intros c. apply found_spec. Qed.
  Lemma isGroupChar_par : forall c, isGroupChar sg cfg c = par C c.
  Proof. intros c. apply found_spec. Qed.
  Lemma isQuote_quo : forall c, isQuote sg cfg c = quo C c.
  Proof. intros c. apply found_spec. Qed.
  Lemma isGroupSeparator_sep : forall c, isGroupSeparator sg cfg c = sep C c.
  Proof.
    intros c. unfold isGroupSeparator, sep. rewrite isSpace_sp.
    destruct (sp C c); [reflexivity|]. cbn [orb]. apply found_spec.
  Qed.

  Lemma assign_eq : forall c, N.eqb (uchar c) 61 = k_assign c.
  Proof.
    intros c. unfold k_assign, equals_sign. apply Bool.eq_iff_eq_true.
    rewrite N.eqb_eq, Ascii.eqb_eq. split.
    - intros H. apply uchar_inj. rewrite H. reflexivity.
    - intros ->. reflexivity.
  Qed.

  Lemma getCharType_spec : forall c,
    getCharType sg cfg c =
      if k_assign c then CAssignment else if k_space C c then CSpace
      else if k_paren C c then CGroup else if k_quote C c then CQuote else CString.
  Proof.
    intros c. unfold getCharType.
    rewrite assign_eq, isSpace_sp, isGroupChar_par, isQuote_quo.
    unfold k_space, k_paren, k_quote.
    destruct (k_assign c), (sp C c), (par C c), (quo C c); reflexivity.
  Qed.

  Ltac kinds c :=
    rewrite ?getCharType_spec; unfold k_word, k_space, k_paren, k_quote in *;
    destruct (k_assign c), (sp C c), (par C c), (quo C c); cbn in *; try congruence; auto.

  Lemma ct_space : forall c, char_type_eqb (getCharType sg cfg c) CSpace = k_space C c.
  Proof. intros c. kinds c. Qed.
  Lemma ct_quote : forall c, char_type_eqb (getCharType sg cfg c) CQuote = k_quote C c.
  Proof. intros c. kinds c. Qed.
  Lemma ct_group : forall c, char_type_eqb (getCharType sg cfg c) CGroup = k_paren C c.
  Proof. intros c. kinds c. Qed.
  Lemma ct_word : forall c, char_type_eqb (getCharType sg cfg c) CString = k_word C c.
  Proof. intros c. kinds c. Qed.

  (** * Views *)

  Definition in_view (cmd : bytes) (v : view) : Prop := v_off v + v_len v <= length cmd.

  Lemma view_bytes_length : forall cmd v, in_view cmd v -> length (view_bytes cmd v) = v_len v.
  Proof.
    intros cmd v H. unfold view_bytes, in_view in *.
    rewrite firstn_length, skipn_length. lia.
  Qed.

  Lemma nth_error_view : forall cmd v i,
    i < v_len v -> nth_error cmd (v_off v + i) = nth_error (view_bytes cmd v) i.
  Proof.
    intros cmd v i Hi. unfold view_bytes.
    rewrite nth_error_firstn_lt by assumption. symmetry. apply nth_error_skipn_add.
  Qed.

  Lemma view_at_mid : forall cmd v front c rest,
    in_view cmd v -> view_bytes cmd v = front ++ c :: rest ->
    view_at cmd v (length front) = Done c.
  Proof.
    intros cmd v front c rest Hin Hb. unfold view_at.
    pose proof (view_bytes_length cmd v Hin) as Hl.
    rewrite Hb, app_length in Hl. cbn [length] in Hl.
    assert (Hlt : length front < v_len v) by lia.
    replace (length front <? v_len v) with true by (symmetry; apply Nat.ltb_lt; lia).
    cbn [assert_ bind]. rewrite nth_error_view by assumption. rewrite Hb.
    rewrite nth_error_app2 by lia. rewrite Nat.sub_diag. reflexivity.
  Qed.

  Lemma whole_in_view : forall cmd, in_view cmd (whole cmd).
  Proof. intros cmd. unfold in_view, whole. cbn. lia. Qed.

  Lemma whole_bytes : forall cmd, view_bytes cmd (whole cmd) = cmd.
  Proof. intros cmd. unfold view_bytes, whole. cbn. apply firstn_all. Qed.

  Lemma substr_mid : forall cmd v front mid rest,
    in_view cmd v -> view_bytes cmd v = front ++ mid ++ rest ->
    exists u, substr v (length front) (length mid) = Done u /\
              view_bytes cmd u = mid /\ in_view cmd u /\
              v_off v <= v_off u /\ v_off u + v_len u <= v_off v + v_len v.
  Proof.
    intros cmd v front mid rest Hin Hb.
    pose proof (view_bytes_length cmd v Hin) as Hl.
    rewrite Hb, !app_length in Hl.
    unfold substr.
    replace (length front <=? v_len v) with true by (symmetry; apply Nat.leb_le; lia).
    replace (length mid <=? v_len v) with true by (symmetry; apply Nat.leb_le; lia).
    replace (length front + length mid <=? v_len v) with true by (symmetry; apply Nat.leb_le; lia).
    cbn [assert_ bind]. eexists. split; [reflexivity|].
    unfold in_view in *. cbn [v_off v_len]. repeat split; try lia.
    unfold view_bytes in *. cbn [v_off v_len].
    rewrite skipn_add.
    assert (Hs : firstn (length mid) (skipn (length front) (firstn (v_len v) (skipn (v_off v) cmd))) = mid).
    { rewrite Hb. rewrite skipn_length_app. apply firstn_length_app. }
    rewrite <- Hs at 2. rewrite skipn_firstn_comm, firstn_firstn.
    f_equal. lia.
  Qed.

  (** * Scanning loops *)

  Lemma ltb_true : forall a b, a < b -> (a <? b) = true.
  Proof. intros a b H. now apply Nat.ltb_lt. Qed.
  Lemma ltb_false : forall a b, b <= a -> (a <? b) = false.
  Proof. intros a b H. now apply Nat.ltb_ge. Qed.
  Lemma leb_true : forall a b, a <= b -> (a <=? b) = true.
  Proof. intros a b H. now apply Nat.leb_le. Qed.
  Lemma leb_false : forall a b, b < a -> (a <=? b) = false.
  Proof. intros a b H. now apply Nat.leb_gt. Qed.

  Lemma scan_spec : forall p cmd v pre rest front fuel,
    in_view cmd v -> view_bytes cmd v = front ++ pre ++ rest ->
    all p pre -> stops p rest -> length pre + length rest <= fuel ->
    scan p cmd v fuel (length front) = Done (length front + length pre).
  Proof.
    intros p cmd v pre. induction pre as [|c pre IH]; intros rest front fuel Hin Hb Hp Hs Hf;
      pose proof (view_bytes_length cmd v Hin) as Hl; rewrite Hb, !app_length in Hl;
      cbn [app length] in *.
    - destruct rest as [|c rest]; cbn [length] in *.
      + destruct fuel; cbn [scan]; rewrite ltb_false by lia; f_equal; lia.
      + destruct fuel as [|fuel]; [lia|]. cbn [scan]. rewrite ltb_true by lia.
        rewrite (view_at_mid cmd v front c rest) by assumption. cbn [bind].
        cbn [stops] in Hs. rewrite Hs. f_equal; lia.
    - destruct fuel as [|fuel]; [lia|]. cbn [scan]. rewrite ltb_true by lia.
      rewrite (view_at_mid cmd v front c (pre ++ rest)) by assumption. cbn [bind].
      rewrite (Hp c) by (left; reflexivity).
      replace (S (length front)) with (length (front ++ [c])) by (rewrite app_length; cbn; lia).
      rewrite (IH rest (front ++ [c]) fuel); try assumption.
      + rewrite app_length. cbn. f_equal. lia.
      + rewrite <- app_assoc. exact Hb.
      + intros x Hx. apply Hp. now right.
      + lia.
  Qed.

  Lemma all_ext : forall p q s, (forall c, p c = q c) -> all p s -> all q s.
  Proof. intros p q s H Hs c Hc. rewrite <- H. now apply Hs. Qed.

  Lemma stops_ext : forall p q s, (forall c, p c = q c) -> stops p s -> stops q s.
  Proof. intros p q [|c s] H Hs; cbn in *; [exact I|]. now rewrite <- H. Qed.

  (** The word loop, with the token type it computes. *)
  Lemma scan_word_spec : forall cmd v pre rest front fuel ty,
    in_view cmd v -> view_bytes cmd v = front ++ pre ++ rest ->
    all (k_word C) pre -> stops (k_word C) rest -> length pre + length rest <= fuel ->
    scan_word sg cfg cmd v fuel (length front) ty =
      Done (length front + length pre, if existsb (sep C) pre then TGroupString else ty).
  Proof.
    intros cmd v pre. induction pre as [|c pre IH]; intros rest front fuel ty Hin Hb Hp Hs Hf;
      pose proof (view_bytes_length cmd v Hin) as Hl; rewrite Hb, !app_length in Hl;
      cbn [app length existsb] in *.
    - rewrite Nat.add_0_r. destruct rest as [|c rest]; cbn [length] in *.
      + destruct fuel; cbn [scan_word]; rewrite ltb_false by lia; reflexivity.
      + destruct fuel as [|fuel]; [lia|]. cbn [scan_word]. rewrite ltb_true by lia.
        rewrite (view_at_mid cmd v front c rest) by assumption. cbn [bind].
        rewrite ct_word. cbn [stops] in Hs. rewrite Hs. reflexivity.
    - destruct fuel as [|fuel]; [lia|]. cbn [scan_word]. rewrite ltb_true by lia.
      rewrite (view_at_mid cmd v front c (pre ++ rest)) by assumption. cbn [bind].
      rewrite ct_word, (Hp c) by (left; reflexivity).
      replace (S (length front)) with (length (front ++ [c])) by (rewrite app_length; cbn; lia).
      rewrite (IH rest (front ++ [c]) fuel); try assumption.
      + rewrite app_length. cbn [length]. rewrite isGroupSeparator_sep.
        do 2 f_equal; [lia|].
        destruct (sep C c), (existsb (sep C) pre); reflexivity.
      + rewrite <- app_assoc. exact Hb.
      + intros x Hx. apply Hp. now right.
      + lia.
  Qed.

  (** * Tokenization *)

  Definition tok_sem (cmd : bytes) (t : token) : stok :=
    match t_type t with
    | TString => SStr (view_bytes cmd (t_value t))
    | TGroupString => SGrp (view_bytes cmd (t_value t))
    | TAssignment => SAssign
    end.

  Definition tok_ok (cmd : bytes) (t : token) : Prop :=
    in_view cmd (t_value t) /\
    (t_type t = TAssignment -> view_bytes cmd (t_value t) = [equals_sign]).

  Definition tok_result (cmd : bytes) (acc : list token) (r : list stok + lex_error)
             (o : outcome (expected (list token))) : Prop :=
    match r with
    | inl ts => exists vts, o = Done (Value (acc ++ vts)) /\
                            map (tok_sem cmd) vts = ts /\ Forall (tok_ok cmd) vts
    | inr e => o = Done (Error (message (ELex e)))
    end.

  Lemma tok_result_cons : forall cmd acc t r o,
    tok_ok cmd t ->
    tok_result cmd (acc ++ [t]) r o ->
    tok_result cmd acc (cons_tok (tok_sem cmd t) r) o.
  Proof.
    intros cmd acc t [ts|e] o Ht; cbn; [|auto].
    intros (vts & -> & Hm & Hf). exists (t :: vts). split.
    - now rewrite <- app_assoc.
    - split; [cbn; congruence|]. now constructor.
  Qed.

  Lemma all_none_neg : forall p s, none p s -> all (fun c => negb (p c)) s.
  Proof. intros p s H c Hc. rewrite (H c Hc). reflexivity. Qed.

  Lemma stops_neg : forall p c s, p c = true -> stops (fun c => negb (p c)) (c :: s).
  Proof. intros p c s H. cbn. now rewrite H. Qed.

  Lemma k_disjoint : forall c,
    (k_word C c = true -> getCharType sg cfg c = CString) /\
    (k_assign c = true -> getCharType sg cfg c = CAssignment) /\
    (k_quote C c = true -> getCharType sg cfg c = CQuote) /\
    (k_paren C c = true -> getCharType sg cfg c = CGroup) /\
    (k_space C c = true -> getCharType sg cfg c = CSpace).
  Proof. intros c. kinds c; repeat split; intros; try congruence. Qed.

  Lemma k_nonspace : forall c,
    (k_word C c = true \/ k_assign c = true \/ k_quote C c = true \/ k_paren C c = true) ->
    k_space C c = false.
  Proof. intros c [H|[H|[H|H]]]; kinds c. Qed.

  (** What the loop does once the white space before a token has been skipped. *)
  Lemma loop_skip_space : forall cmd front ws c rest fuel acc,
    cmd = front ++ ws ++ c :: rest -> all (k_space C) ws -> k_space C c = false ->
    scan (fun c => char_type_eqb (getCharType sg cfg c) CSpace) cmd (whole cmd)
         (v_len (whole cmd)) (length front) = Done (length (front ++ ws)) /\
    (length front <? v_len (whole cmd)) = true /\
    (v_len (whole cmd) <=? length (front ++ ws)) = false /\
    view_at cmd (whole cmd) (length (front ++ ws)) = Done c /\
    (fuel : nat) = fuel /\ (acc : list token) = acc.
  Proof.
    intros cmd front ws c rest fuel acc Hcmd Hws Hc.
    assert (Hlen : length cmd = length front + length ws + S (length rest)).
    { rewrite Hcmd, !app_length. cbn. lia. }
    cbn [whole v_len]. repeat split.
    - rewrite (scan_spec _ cmd (whole cmd) ws (c :: rest)).
      + rewrite app_length. reflexivity.
      + apply whole_in_view.
      + rewrite whole_bytes. exact Hcmd.
      + apply (all_ext (k_space C)); [|assumption]. intros x. now rewrite ct_space.
      + cbn. now rewrite ct_space.
      + cbn [length]. lia.
    - apply ltb_true. lia.
    - apply leb_false. rewrite app_length. lia.
    - apply (view_at_mid cmd (whole cmd) (front ++ ws) c rest).
      + apply whole_in_view.
      + rewrite whole_bytes, <- app_assoc. exact Hcmd.
  Qed.

  Lemma size_sub_le : forall a b n, a = b + n -> size_sub a b = Done n.
  Proof.
    intros a b n ->. unfold size_sub. rewrite leb_true by lia. f_equal. lia.
  Qed.

  Lemma tokenize_loop_spec : forall s r, lexes C s r ->
    forall cmd front fuel acc, cmd = front ++ s -> length s < fuel ->
    tok_result cmd acc r (tokenize_loop sg cfg cmd (whole cmd) fuel (length front) acc).
  Proof.
    intros s r H. induction H as
      [ws Hws | ws c w rest r Hws Hc Hw Hstop Hlex IH | ws c rest r Hws Hc Hlex IH
      | ws q body q' rest r Hws Hq Hbody Hq' Hlex IH | ws q body q' rest r Hws Hq Hbody Hq' Hlex IH
      | ws q body Hws Hq Hbody | ws q body Hws Hq Hbody];
      intros cmd front fuel acc Hcmd Hfuel; (destruct fuel as [|fuel]; [lia|]).
    - (* white space only *)
      exists []. rewrite app_nil_r. split; [|split; constructor].
      cbn [tokenize_loop].
      assert (Hlen : length cmd = length front + length ws) by (rewrite Hcmd, app_length; lia).
      cbn [whole v_len].
      destruct (length front <? length cmd) eqn:Hlt; [|reflexivity].
      rewrite (scan_spec _ cmd (whole cmd) ws []).
      + cbn [bind]. rewrite leb_true by lia. reflexivity.
      + apply whole_in_view.
      + rewrite whole_bytes, app_nil_r. exact Hcmd.
      + apply (all_ext (k_space C)); [|assumption]. intros x. now rewrite ct_space.
      + exact I.
      + cbn [length]. lia.
    - (* word *)
      destruct (loop_skip_space cmd front ws c (w ++ rest) fuel acc Hcmd Hws) as (E1 & E2 & E3 & E4 & _).
      { apply k_nonspace. auto. }
      cbn [tokenize_loop]. rewrite E2, E1. cbn [bind]. rewrite E3, E4. cbn [bind].
      destruct (k_disjoint c) as (D & _). rewrite (D Hc).
      assert (Hc1 : cmd = (front ++ ws ++ [c]) ++ w ++ rest).
      { rewrite Hcmd, <- !app_assoc. reflexivity. }
      assert (Hlen : length cmd = length front + length ws + 1 + length w + length rest).
      { rewrite Hc1, !app_length. cbn. lia. }
      replace (S (length (front ++ ws))) with (length (front ++ ws ++ [c]))
        by (rewrite !app_length; cbn; lia).
      rewrite (scan_word_spec cmd (whole cmd) w rest).
      2: apply whole_in_view.
      2: rewrite whole_bytes; exact Hc1.
      2,3: assumption.
      2: cbn [whole v_len]; lia.
      cbn [bind].
      rewrite (size_sub_le _ _ (length (c :: w))) by (rewrite !app_length; cbn; lia).
      cbn [bind].
      destruct (substr_mid cmd (whole cmd) (front ++ ws) (c :: w) rest) as (u & Eu & Bu & Iu & _).
      { apply whole_in_view. }
      { rewrite whole_bytes, Hcmd, <- !app_assoc. reflexivity. }
      rewrite Eu. cbn [bind].
      set (ty := if existsb (sep C) w then TGroupString else TString).
      assert (Hsem : tok_sem cmd (Token ty u) =
                     if existsb (sep C) w then SGrp (c :: w) else SStr (c :: w)).
      { unfold tok_sem, ty. destruct (existsb (sep C) w); cbn; now rewrite Bu. }
      rewrite <- Hsem. apply tok_result_cons.
      { split; [exact Iu|]. unfold ty. destruct (existsb (sep C) w); discriminate. }
      replace (length (front ++ ws ++ [c]) + length w) with (length (front ++ ws ++ c :: w))
        by (rewrite !app_length; cbn; lia).
      apply IH.
      + rewrite Hcmd, <- !app_assoc. reflexivity.
      + rewrite !app_length in Hfuel. cbn in Hfuel. rewrite app_length in Hfuel. lia.
    - (* = *)
      destruct (loop_skip_space cmd front ws c rest fuel acc Hcmd Hws) as (E1 & E2 & E3 & E4 & _).
      { apply k_nonspace. auto. }
      cbn [tokenize_loop]. rewrite E2, E1. cbn [bind]. rewrite E3, E4. cbn [bind].
      destruct (k_disjoint c) as (_ & D & _). rewrite (D Hc).
      destruct (substr_mid cmd (whole cmd) (front ++ ws) [c] rest) as (u & Eu & Bu & Iu & _).
      { apply whole_in_view. }
      { rewrite whole_bytes, Hcmd, <- !app_assoc. reflexivity. }
      cbn [length] in Eu. rewrite Eu. cbn [bind].
      change SAssign with (tok_sem cmd (Token TAssignment u)). apply tok_result_cons.
      { split; [exact Iu|]. intros _. cbn [t_value]. rewrite Bu. f_equal.
        apply Ascii.eqb_eq. exact Hc. }
      replace (S (length (front ++ ws))) with (length (front ++ ws ++ [c]))
        by (rewrite !app_length; cbn; lia).
      apply IH.
      + rewrite Hcmd, <- !app_assoc. reflexivity.
      + rewrite !app_length in Hfuel. cbn in Hfuel. lia.
    - (* quoted *)
      destruct (loop_skip_space cmd front ws q (body ++ q' :: rest) fuel acc Hcmd Hws) as (E1 & E2 & E3 & E4 & _).
      { apply k_nonspace. auto. }
      cbn [tokenize_loop]. rewrite E2, E1. cbn [bind]. rewrite E3, E4. cbn [bind].
      destruct (k_disjoint q) as (_ & _ & D & _). rewrite (D Hq).
      assert (Hc1 : cmd = (front ++ ws ++ [q]) ++ body ++ q' :: rest).
      { rewrite Hcmd, <- !app_assoc. reflexivity. }
      assert (Hlen : length cmd = length front + length ws + 1 + length body + S (length rest)).
      { rewrite Hc1, !app_length. cbn. lia. }
      replace (S (length (front ++ ws))) with (length (front ++ ws ++ [q]))
        by (rewrite !app_length; cbn; lia).
      rewrite (scan_spec _ cmd (whole cmd) body (q' :: rest)).
      2: apply whole_in_view.
      2: rewrite whole_bytes; exact Hc1.
      2: { apply (all_ext (fun c => negb (k_quote C c))); [intros x; now rewrite ct_quote|].
           now apply all_none_neg. }
      2: { cbn. rewrite ct_quote, Hq'. reflexivity. }
      2: cbn [whole v_len length]; lia.
      cbn [bind].
      cbn [whole v_len]. rewrite leb_false by (rewrite !app_length; cbn; lia).
      rewrite (size_sub_le _ _ (length body)) by (rewrite !app_length; cbn; lia).
      cbn [bind].
      destruct (substr_mid cmd (whole cmd) (front ++ ws ++ [q]) body (q' :: rest)) as (u & Eu & Bu & Iu & _).
      { apply whole_in_view. }
      { rewrite whole_bytes. exact Hc1. }
      replace (length (front ++ ws) + 1) with (length (front ++ ws ++ [q]))
        by (rewrite !app_length; cbn; lia).
      change {| v_off := 0; v_len := length cmd |} with (whole cmd).
      rewrite Eu. cbn [bind].
      rewrite <- Bu at 1.
      change (SStr (view_bytes cmd u)) with (tok_sem cmd (Token TString u)).
      apply tok_result_cons.
      { split; [exact Iu|]. discriminate. }
      replace (S (length (front ++ ws ++ [q]) + length body))
        with (length (front ++ ws ++ q :: body ++ [q']))
        by (rewrite !app_length; cbn; rewrite !app_length; cbn; lia).
      apply IH.
      + rewrite Hcmd, <- !app_assoc. cbn. rewrite <- app_assoc. reflexivity.
      + rewrite !app_length in Hfuel. cbn in Hfuel. rewrite app_length in Hfuel. cbn in Hfuel. lia.
    - (* group *)
      destruct (loop_skip_space cmd front ws q (body ++ q' :: rest) fuel acc Hcmd Hws) as (E1 & E2 & E3 & E4 & _).
      { apply k_nonspace. auto. }
      cbn [tokenize_loop]. rewrite E2, E1. cbn [bind]. rewrite E3, E4. cbn [bind].
      destruct (k_disjoint q) as (_ & _ & _ & D & _). rewrite (D Hq).
      assert (Hc1 : cmd = (front ++ ws ++ [q]) ++ body ++ q' :: rest).
      { rewrite Hcmd, <- !app_assoc. reflexivity. }
      assert (Hlen : length cmd = length front + length ws + 1 + length body + S (length rest)).
      { rewrite Hc1, !app_length. cbn. lia. }
      replace (S (length (front ++ ws))) with (length (front ++ ws ++ [q]))
        by (rewrite !app_length; cbn; lia).
      rewrite (scan_spec _ cmd (whole cmd) body (q' :: rest)).
      2: apply whole_in_view.
      2: rewrite whole_bytes; exact Hc1.
      2: { apply (all_ext (fun c => negb (k_paren C c))); [intros x; now rewrite ct_group|].
           now apply all_none_neg. }
      2: { cbn. rewrite ct_group, Hq'. reflexivity. }
      2: cbn [whole v_len length]; lia.
      cbn [bind].
      cbn [whole v_len]. rewrite leb_false by (rewrite !app_length; cbn; lia).
      rewrite (size_sub_le _ _ (length body)) by (rewrite !app_length; cbn; lia).
      cbn [bind].
      destruct (substr_mid cmd (whole cmd) (front ++ ws ++ [q]) body (q' :: rest)) as (u & Eu & Bu & Iu & _).
      { apply whole_in_view. }
      { rewrite whole_bytes. exact Hc1. }
      replace (length (front ++ ws) + 1) with (length (front ++ ws ++ [q]))
        by (rewrite !app_length; cbn; lia).
      change {| v_off := 0; v_len := length cmd |} with (whole cmd).
      rewrite Eu. cbn [bind].
      rewrite <- Bu at 1.
      change (SGrp (view_bytes cmd u)) with (tok_sem cmd (Token TGroupString u)).
      apply tok_result_cons.
      { split; [exact Iu|]. discriminate. }
      replace (S (length (front ++ ws ++ [q]) + length body))
        with (length (front ++ ws ++ q :: body ++ [q']))
        by (rewrite !app_length; cbn; rewrite !app_length; cbn; lia).
      apply IH.
      + rewrite Hcmd, <- !app_assoc. cbn. rewrite <- app_assoc. reflexivity.
      + rewrite !app_length in Hfuel. cbn in Hfuel. rewrite app_length in Hfuel. cbn in Hfuel. lia.
    - (* open quote *)
      destruct (loop_skip_space cmd front ws q body fuel acc Hcmd Hws) as (E1 & E2 & E3 & E4 & _).
      { apply k_nonspace. auto. }
      cbn [tok_result tokenize_loop]. rewrite E2, E1. cbn [bind]. rewrite E3, E4. cbn [bind].
      destruct (k_disjoint q) as (_ & _ & D & _). rewrite (D Hq).
      assert (Hc1 : cmd = (front ++ ws ++ [q]) ++ body ++ []).
      { rewrite Hcmd, <- !app_assoc, app_nil_r. reflexivity. }
      assert (Hlen : length cmd = length front + length ws + 1 + length body).
      { rewrite Hc1, !app_length. cbn. lia. }
      replace (S (length (front ++ ws))) with (length (front ++ ws ++ [q]))
        by (rewrite !app_length; cbn; lia).
      rewrite (scan_spec _ cmd (whole cmd) body []).
      2: apply whole_in_view.
      2: rewrite whole_bytes; exact Hc1.
      2: { apply (all_ext (fun c => negb (k_quote C c))); [intros x; now rewrite ct_quote|].
           now apply all_none_neg. }
      2: exact I.
      2: cbn [whole v_len length]; lia.
      cbn [bind]. rewrite leb_true by (cbn [whole v_len]; rewrite !app_length; cbn; lia).
      reflexivity.
    - (* open group *)
      destruct (loop_skip_space cmd front ws q body fuel acc Hcmd Hws) as (E1 & E2 & E3 & E4 & _).
      { apply k_nonspace. auto. }
      cbn [tok_result tokenize_loop]. rewrite E2, E1. cbn [bind]. rewrite E3, E4. cbn [bind].
      destruct (k_disjoint q) as (_ & _ & _ & D & _). rewrite (D Hq).
      assert (Hc1 : cmd = (front ++ ws ++ [q]) ++ body ++ []).
      { rewrite Hcmd, <- !app_assoc, app_nil_r. reflexivity. }
      assert (Hlen : length cmd = length front + length ws + 1 + length body).
      { rewrite Hc1, !app_length. cbn. lia. }
      replace (S (length (front ++ ws))) with (length (front ++ ws ++ [q]))
        by (rewrite !app_length; cbn; lia).
      rewrite (scan_spec _ cmd (whole cmd) body []).
      2: apply whole_in_view.
      2: rewrite whole_bytes; exact Hc1.
      2: { apply (all_ext (fun c => negb (k_paren C c))); [intros x; now rewrite ct_group|].
           now apply all_none_neg. }
      2: exact I.
      2: cbn [whole v_len length]; lia.
      cbn [bind]. rewrite leb_true by (cbn [whole v_len]; rewrite !app_length; cbn; lia).
      reflexivity.
  Qed.

  Lemma tokenize_spec : forall cmd r, lexes C cmd r -> tok_result cmd [] r (tokenize sg cfg cmd).
  Proof.
    intros cmd r H. unfold tokenize.
    apply (tokenize_loop_spec cmd r H cmd [] (S (length cmd)) []); [reflexivity|lia].
  Qed.

  (** Every text is a token sequence or has an open quote or group. *)
  Lemma lexes_total : forall s, exists r, lexes C s r.
  Proof.
    intros s. remember (length s) as n eqn:Hn. revert s Hn.
    induction n as [n IH] using lt_wf_ind. intros s Hn.
    destruct (span_exists _ (k_space C) s) as (ws & s1 & -> & Hws & Hstop).
    destruct s1 as [|c s1].
    { exists (inl []). rewrite app_nil_r. now constructor. }
    destruct (k_assign c) eqn:Ka.
    { destruct (IH (length s1)) with (s := s1) as (r & Hr); try reflexivity.
      - subst n. rewrite app_length. cbn. lia.
      - eexists. apply lex_assign; eassumption. }
    destruct (k_paren C c) eqn:Kp.
    { destruct (span_exists _ (fun c => negb (k_paren C c)) s1) as (body & s2 & -> & Hb & Hs2).
      assert (Hb' : none (k_paren C) body).
      { intros x Hx. specialize (Hb x Hx). destruct (k_paren C x); [discriminate|reflexivity]. }
      destruct s2 as [|p' s2].
      - rewrite app_nil_r. eexists. apply lex_open_group; assumption.
      - destruct (IH (length s2)) with (s := s2) as (r & Hr); try reflexivity.
        + subst n. rewrite !app_length. cbn. rewrite app_length. cbn. lia.
        + eexists. apply lex_group; try eassumption.
          destruct (k_paren C p'); [reflexivity|discriminate]. }
    destruct (k_quote C c) eqn:Kq.
    { destruct (span_exists _ (fun c => negb (k_quote C c)) s1) as (body & s2 & -> & Hb & Hs2).
      assert (Hb' : none (k_quote C) body).
      { intros x Hx. specialize (Hb x Hx). destruct (k_quote C x); [discriminate|reflexivity]. }
      destruct s2 as [|p' s2].
      - rewrite app_nil_r. eexists. apply lex_open_quote; assumption.
      - destruct (IH (length s2)) with (s := s2) as (r & Hr); try reflexivity.
        + subst n. rewrite !app_length. cbn. rewrite app_length. cbn. lia.
        + eexists. apply lex_quoted; try eassumption.
          destruct (k_quote C p'); [reflexivity|discriminate]. }
    assert (Kw : k_word C c = true).
    { unfold k_word, k_space, k_paren, k_quote in *.
      destruct (k_assign c), (sp C c), (par C c), (quo C c); cbn in *; congruence. }
    destruct (span_exists _ (k_word C) s1) as (w & s2 & -> & Hw & Hs2).
    destruct (IH (length s2)) with (s := s2) as (r & Hr); try reflexivity.
    - subst n. rewrite !app_length. cbn. rewrite app_length. lia.
    - eexists. eapply lex_word; eauto.
  Qed.

  Ltac len := repeat (rewrite !app_length in *; cbn [length app] in *); try lia.
  Ltac norm_app := cbn [app]; repeat (rewrite <- !app_assoc; cbn [app]).

  (** * Splitting compound values *)

  Definition walk_ok (b : bool) (s : bytes) : Prop :=
    forall p c r, s = p ++ c :: r -> sep C c = true -> xorb b (Nat.odd (nquotes C p)) = true.

  Definition walk_end (b : bool) (s rest : bytes) : Prop :=
    match rest with
    | [] => True
    | c :: _ => sep C c = true /\ xorb b (Nat.odd (nquotes C s)) = false
    end.

  Lemma odd_nquotes_cons : forall c s,
    Nat.odd (nquotes C (c :: s)) = xorb (quo C c) (Nat.odd (nquotes C s)).
  Proof.
    intros c s. unfold nquotes. cbn [filter]. destruct (quo C c).
    - cbn [length]. rewrite Nat.odd_succ, <- Nat.negb_odd.
      destruct (Nat.odd (length (filter (quo C) s))); reflexivity.
    - now rewrite xorb_false_l.
  Qed.

  Lemma next_quote_state : forall c b, (if isQuote sg cfg c then negb b else b) = xorb b (quo C c).
  Proof. intros c b. rewrite isQuote_quo. destruct (quo C c), b; reflexivity. Qed.

  Lemma walk_ok_cons : forall b c s,
    walk_ok b (c :: s) <-> ((sep C c = true -> b = true) /\ walk_ok (xorb b (quo C c)) s).
  Proof.
    intros b c s. split.
    - intros H. split.
      + intros Hc. specialize (H [] c s eq_refl Hc). cbn in H. now rewrite xorb_false_r in H.
      + intros p x r -> Hx. specialize (H (c :: p) x r eq_refl Hx).
        rewrite odd_nquotes_cons in H. rewrite <- xorb_assoc in H. exact H.
    - intros [H1 H2] [|y p] x r He Hx; cbn in He; injection He as <- He.
      + cbn. rewrite xorb_false_r. auto.
      + rewrite odd_nquotes_cons, <- xorb_assoc. eapply H2; eassumption.
  Qed.

  Lemma walk_end_cons : forall b c s rest,
    walk_end b (c :: s) rest <-> walk_end (xorb b (quo C c)) s rest.
  Proof.
    intros b c s [|x rest]; cbn [walk_end]; [reflexivity|].
    rewrite odd_nquotes_cons, <- xorb_assoc. reflexivity.
  Qed.

  Lemma scan_item_spec : forall cmd v s rest front fuel b,
    in_view cmd v -> view_bytes cmd v = front ++ s ++ rest ->
    walk_ok b s -> walk_end b s rest -> length s + length rest <= fuel ->
    scan_item sg cfg cmd v fuel (length front) b = Done (length front + length s).
  Proof.
    intros cmd v s. induction s as [|c s IH]; intros rest front fuel b Hin Hb Hw He Hf;
      pose proof (view_bytes_length cmd v Hin) as Hl; rewrite Hb, !app_length in Hl;
      cbn [app length] in *.
    - rewrite Nat.add_0_r. destruct rest as [|c rest]; cbn [length] in *.
      + destruct fuel; cbn [scan_item]; rewrite ltb_false by lia; reflexivity.
      + destruct fuel as [|fuel]; [lia|]. cbn [scan_item]. rewrite ltb_true by lia.
        rewrite (view_at_mid cmd v front c rest) by assumption. cbn [bind].
        destruct He as [Hc He]. cbn in He. rewrite xorb_false_r in He. subst b.
        rewrite isGroupSeparator_sep, Hc. reflexivity.
    - destruct fuel as [|fuel]; [lia|]. cbn [scan_item]. rewrite ltb_true by lia.
      rewrite (view_at_mid cmd v front c (s ++ rest)) by assumption. cbn [bind].
      apply walk_ok_cons in Hw. destruct Hw as [Hc Hw].
      apply walk_end_cons in He. rewrite isGroupSeparator_sep.
      assert (Hskip : b || negb (sep C c) = true).
      { destruct (sep C c); [rewrite Hc by reflexivity; reflexivity|]. now rewrite orb_true_r. }
      rewrite Hskip, next_quote_state.
      replace (S (length front)) with (length (front ++ [c])) by (rewrite app_length; cbn; lia).
      rewrite (IH rest (front ++ [c]) fuel); try assumption.
      + rewrite app_length. cbn. f_equal. lia.
      + rewrite <- app_assoc. exact Hb.
      + lia.
  Qed.

  Lemma raw_item_walk : forall s, raw_item C s -> s <> [] /\ walk_ok false s.
  Proof.
    intros s [H1 H2]. split; [assumption|]. intros p c r He Hc.
    rewrite xorb_false_l. eauto.
  Qed.

  Lemma item_end_walk : forall s rest, item_end C s rest -> walk_end false s rest.
  Proof. intros s [|c rest]; cbn [item_end walk_end]; [auto|]. now rewrite xorb_false_l. Qed.

  (** A raw item starts with a byte that is no separator. *)
  Lemma raw_item_head : forall c s, raw_item C (c :: s) -> sep C c = false.
  Proof.
    intros c s [_ H]. destruct (sep C c) eqn:Hc; [|reflexivity].
    specialize (H [] c s eq_refl Hc). discriminate.
  Qed.

  (** Prefix of one iteration of splitGroup: separators and the raw item. *)
  Lemma split_iter : forall cmd v front ws c s rest fuel acc,
    in_view cmd v -> view_bytes cmd v = front ++ ws ++ (c :: s) ++ rest ->
    all (sep C) ws -> raw_item C (c :: s) -> item_end C (c :: s) rest ->
    splitGroup_loop sg cfg cmd v (S fuel) (length front) acc =
      (let i := length (front ++ ws ++ c :: s) in
       quoted <- (if quo C c then
                    ce <- view_at cmd v (i - 1) ;; Done (quo C ce)
                  else Done false) ;;
       let '(b, e) := (if quoted : bool
                       then (S (length (front ++ ws)), i - 1)
                       else (length (front ++ ws), i)) in
       len <- size_sub e b ;;
       sub <- substr v b len ;;
       splitGroup_loop sg cfg cmd v fuel (S i) (acc ++ [sub])).
  Proof.
    intros cmd v front ws c s rest fuel acc Hin Hb Hws Hraw Hend.
    pose proof (view_bytes_length cmd v Hin) as Hl. rewrite Hb, !app_length in Hl.
    cbn [length] in Hl. cbn [splitGroup_loop]. rewrite ltb_true by lia.
    rewrite (scan_spec _ cmd v ws ((c :: s) ++ rest)); try assumption.
    2: { apply (all_ext (sep C)); [|assumption]. intros x. now rewrite isGroupSeparator_sep. }
    2: { cbn. rewrite isGroupSeparator_sep. eapply raw_item_head; eassumption. }
    2: { cbn [app length]. rewrite app_length. lia. }
    cbn [bind]. rewrite leb_false by lia.
    rewrite <- app_length.
    rewrite (scan_item_spec cmd v (c :: s) rest (front ++ ws)); try assumption.
    2: { rewrite <- app_assoc. exact Hb. }
    2: { now apply raw_item_walk. }
    2: { now apply item_end_walk. }
    2: { cbn [length]. lia. }
    cbn [bind].
    rewrite (view_at_mid cmd v (front ++ ws) c (s ++ rest)).
    2: assumption.
    2: { rewrite <- app_assoc. exact Hb. }
    cbn [bind].
    replace (length (front ++ ws) + length (c :: s)) with (length (front ++ ws ++ c :: s))
      by (rewrite !app_length; lia).
    cbn zeta. rewrite isQuote_quo.
    destruct (quo C c); [|reflexivity].
    destruct (view_at cmd v (length (front ++ ws ++ c :: s) - 1)) as [ce|f]; [|reflexivity].
    cbn [bind]. rewrite isQuote_quo. reflexivity.
  Qed.

  (** The last byte of an item. *)
  Lemma view_at_last : forall cmd v front s0 c rest,
    in_view cmd v -> view_bytes cmd v = front ++ (s0 ++ [c]) ++ rest ->
    view_at cmd v (length (front ++ s0 ++ [c]) - 1) = Done c.
  Proof.
    intros cmd v front s0 c rest Hin Hb.
    replace (length (front ++ s0 ++ [c]) - 1) with (length (front ++ s0))
      by (rewrite !app_length; cbn; lia).
    apply (view_at_mid cmd v (front ++ s0) c rest); [assumption|].
    rewrite Hb; norm_app; reflexivity.
  Qed.

  Definition split_result (cmd : bytes) (v : view) (acc : list view) (items : list bytes)
             (o : outcome (list view)) : Prop :=
    exists us, o = Done (acc ++ us) /\ map (view_bytes cmd) us = items /\
               Forall (fun u => in_view cmd u /\ v_off v <= v_off u /\
                                v_off u + v_len u <= v_off v + v_len v) us.

  Lemma substr_mid_eq : forall cmd v front mid rest b n,
    in_view cmd v -> view_bytes cmd v = front ++ mid ++ rest ->
    b = length front -> n = length mid ->
    exists u, substr v b n = Done u /\
              view_bytes cmd u = mid /\ in_view cmd u /\
              v_off v <= v_off u /\ v_off u + v_len u <= v_off v + v_len v.
  Proof. intros. subst. eauto using substr_mid. Qed.

  (** After an item the loop continues one position later; that position is a
      separator or the end, so nothing is lost. *)
  Lemma splits_skip : forall c rest items,
    sep C c = true -> splits C (c :: rest) items -> splits C rest items.
  Proof.
    intros c rest items Hc H. inversion H as [ws Hws Heq|ws s rest' t its Hws Hraw Hend Ht Hrec Heq].
    - subst ws. constructor. intros x Hx. apply Hws. now right.
    - destruct ws as [|w ws].
      + cbn in Heq. destruct s as [|x s].
        { destruct Hraw as [Hne _]. congruence. }
        cbn in Heq. injection Heq as -> _. apply raw_item_head in Hraw. congruence.
      + cbn in Heq. injection Heq as -> <-. apply splits_cons; try assumption.
        intros x Hx. apply Hws. now right.
  Qed.

  Lemma lone_skip : forall c rest,
    sep C c = true -> lone_quote C (c :: rest) -> lone_quote C rest.
  Proof.
    intros c rest Hc H. inversion H as [ws q rest' Hws Hraw Hend Hq Heq|ws s rest' Hws Hraw Hend Hrec Heq].
    - destruct ws as [|w ws].
      + cbn in Heq. injection Heq as -> _. apply raw_item_head in Hraw. congruence.
      + cbn in Heq. injection Heq as -> <-. constructor; try assumption.
        intros x Hx. apply Hws. now right.
    - destruct ws as [|w ws].
      + cbn in Heq. destruct s as [|x s].
        { destruct Hraw as [Hne _]. congruence. }
        cbn in Heq. injection Heq as -> _. apply raw_item_head in Hraw. congruence.
      + cbn in Heq. injection Heq as -> <-. apply lone_later; try assumption.
        intros x Hx. apply Hws. now right.
  Qed.

  (** splits and lone_quote, in a form where the continuation skips a byte *)
  Lemma loop_at_end : forall cmd v fuel i acc,
    v_len v <= i -> splitGroup_loop sg cfg cmd v (S fuel) i acc = Done acc.
  Proof. intros. cbn [splitGroup_loop]. rewrite ltb_false by assumption. reflexivity. Qed.

  (** What the item loop does with the quotes around an item. *)
  Lemma item_sub : forall cmd v front ws c s t rest fuel acc,
    in_view cmd v -> view_bytes cmd v = front ++ ws ++ (c :: s) ++ rest ->
    all (sep C) ws -> raw_item C (c :: s) -> item_end C (c :: s) rest ->
    item_text C (c :: s) t ->
    exists u, view_bytes cmd u = t /\ in_view cmd u /\
              v_off v <= v_off u /\ v_off u + v_len u <= v_off v + v_len v /\
              splitGroup_loop sg cfg cmd v (S fuel) (length front) acc =
              splitGroup_loop sg cfg cmd v fuel (S (length (front ++ ws ++ c :: s))) (acc ++ [u]).
  Proof.
    intros cmd v front ws c s t rest fuel acc Hin Hb Hws Hraw Hend Ht.
    rewrite (split_iter cmd v front ws c s rest fuel acc) by assumption. cbn zeta.
    inversion Ht as [q mid q' Hq Hq' Heq E|c0 s0 Hc0 Heq E|s0 c0 Hc0 Heq E].
    - (* quoted *)
      subst q s t. rewrite Hq.
      assert (Hb2 : view_bytes cmd v = (front ++ ws) ++ ((c :: mid) ++ [q']) ++ rest).
      { rewrite Hb; norm_app; reflexivity. }
      replace (front ++ ws ++ c :: mid ++ [q']) with ((front ++ ws) ++ (c :: mid) ++ [q'])
        by (norm_app; reflexivity).
      rewrite (view_at_last cmd v (front ++ ws) (c :: mid) q' rest) by assumption.
      cbn [bind]. rewrite Hq'. cbv iota beta.
      rewrite (size_sub_le _ _ (length mid))
        by (rewrite !app_length; cbn; lia).
      cbn [bind].
      destruct (substr_mid_eq cmd v (front ++ ws ++ [c]) mid ([q'] ++ rest)
                  (S (length (front ++ ws))) (length mid)) as (u & Eu & Bu & Iu & O1 & O2).
      { assumption. }
      { rewrite Hb; norm_app; reflexivity. }
      { rewrite !app_length. cbn. lia. }
      { reflexivity. }
      rewrite Eu. cbn [bind]. exists u. repeat split; try assumption.
    - (* first byte is no quote *)
      subst c0 s0 t. rewrite Hc0. cbn [bind]. cbv iota beta.
      rewrite (size_sub_le _ _ (length (c :: s)))
        by (rewrite !app_length; cbn; lia).
      cbn [bind].
      destruct (substr_mid_eq cmd v (front ++ ws) (c :: s) rest
                  (length (front ++ ws)) (length (c :: s))) as (u & Eu & Bu & Iu & O1 & O2).
      { assumption. }
      { rewrite Hb; norm_app; reflexivity. }
      { reflexivity. }
      { reflexivity. }
      rewrite Eu. cbn [bind]. exists u. repeat split; try assumption.
    - (* last byte is no quote *)
      subst t.
      assert (Hb2 : view_bytes cmd v = (front ++ ws) ++ (s0 ++ [c0]) ++ rest).
      { rewrite Hb, <- Heq; norm_app; reflexivity. }
      rewrite <- ?Heq, (app_assoc front ws (s0 ++ [c0])).
      rewrite (view_at_last cmd v (front ++ ws) s0 c0 rest) by assumption.
      cbn [bind]. rewrite Hc0.
      replace (if quo C c then Done false else Done false) with (@Done bool false)
        by (destruct (quo C c); reflexivity).
      cbn [bind]. cbv iota beta.
      rewrite (size_sub_le _ _ (length (s0 ++ [c0])))
        by (rewrite !app_length; cbn; lia).
      cbn [bind].
      destruct (substr_mid_eq cmd v (front ++ ws) (s0 ++ [c0]) rest
                  (length (front ++ ws)) (length (s0 ++ [c0]))) as (u & Eu & Bu & Iu & O1 & O2).
      { assumption. }
      { exact Hb2. }
      { reflexivity. }
      { reflexivity. }
      rewrite Eu. cbn [bind]. exists u. repeat split; assumption.
  Qed.

  Lemma splitGroup_loop_spec : forall n s items, length s <= n -> splits C s items ->
    forall cmd v front fuel acc,
    in_view cmd v -> view_bytes cmd v = front ++ s -> length s < fuel ->
    split_result cmd v acc items (splitGroup_loop sg cfg cmd v fuel (length front) acc).
  Proof.
    induction n as [|n IHn]; intros s items Hn H cmd v front fuel acc Hin Hb Hfuel;
      (destruct fuel as [|fuel]; [lia|]);
      pose proof (view_bytes_length cmd v Hin) as Hl.
    - destruct s; [|cbn in Hn; lia]. rewrite app_nil_r in Hb. rewrite <- Hb, Hl.
      rewrite loop_at_end by lia.
      assert (items = []) as ->.
      { inversion H as [|ws s rest t its Hws [Hne _] Hend Ht Hrec Heq]; [reflexivity|].
        exfalso. destruct ws; [|discriminate]. destruct s; [congruence|discriminate]. }
      exists []. rewrite app_nil_r. repeat split; constructor.
    - inversion H as [ws Hws|ws s0 rest t its Hws Hraw Hend Ht Hrec Heq].
      + subst. exists []. rewrite app_nil_r. split; [|repeat split; constructor].
        rewrite Hb, app_length in Hl.
        cbn [splitGroup_loop]. destruct (length front <? v_len v) eqn:Hlt; [|reflexivity].
        rewrite (scan_spec _ cmd v s []); try assumption.
        * cbn [bind]. rewrite leb_true by lia. reflexivity.
        * now rewrite app_nil_r.
        * apply (all_ext (sep C)); [|assumption]. intros x. now rewrite isGroupSeparator_sep.
        * exact I.
        * cbn. lia.
      + subst s items. destruct s0 as [|c s0]; [destruct Hraw; congruence|].
        destruct (item_sub cmd v front ws c s0 t rest fuel acc) as (u & Bu & Iu & O1 & O2 & E);
          try assumption.
        rewrite E. clear E.
        assert (Hlen : length rest + length (c :: s0) <= S n).
        { rewrite !app_length in Hn. cbn in *. lia. }
        cbn [length] in Hlen. rewrite !app_length in Hfuel. cbn [length] in Hfuel.
        destruct rest as [|x rest].
        * (* end of text *)
          destruct fuel as [|fuel]; [lia|].
          rewrite loop_at_end.
          2: { rewrite Hb, !app_length in Hl. rewrite !app_length. cbn in *. lia. }
          assert (its = []) as ->.
          { inversion Hrec as [|ws' s' rest' t' its' Hws' [Hne _] Hend' Ht' Hrec' Heq']; [reflexivity|].
            exfalso. destruct ws'; [|discriminate]. destruct s'; [congruence|discriminate]. }
          exists [u]. cbn. rewrite Bu. repeat split. constructor; [|constructor]. auto.
        * destruct Hend as [Hx _]. apply splits_skip in Hrec; [|assumption].
          cbn [length] in *.
          destruct (IHn rest its ltac:(lia) Hrec cmd v (front ++ ws ++ (c :: s0) ++ [x]) fuel (acc ++ [u]))
            as (us & Eus & Bus & Ius).
          { assumption. }
          { rewrite Hb; norm_app; reflexivity. }
          { lia. }
          exists (u :: us).
          replace (S (length (front ++ ws ++ c :: s0)))
            with (length (front ++ ws ++ (c :: s0) ++ [x])).
          2: { clear; repeat (rewrite !app_length; cbn [length app]); lia. }
          split; [rewrite Eus, <- app_assoc; reflexivity|].
          split; [cbn; congruence|]. constructor; auto.
  Qed.

  Lemma splitGroup_spec : forall cmd v items, in_view cmd v -> splits C (view_bytes cmd v) items ->
    split_result cmd v [] items (splitGroup sg cfg cmd v).
  Proof.
    intros cmd v items Hin H. unfold splitGroup.
    apply (splitGroup_loop_spec (length (view_bytes cmd v)) (view_bytes cmd v) items (le_n _) H
             cmd v [] (S (v_len v)) []); [assumption|reflexivity|].
    rewrite view_bytes_length by assumption. lia.
  Qed.

  Lemma item_text_cases : forall s, s <> [] ->
    (exists t, item_text C s t) \/ (exists q, s = [q] /\ quo C q = true).
  Proof.
    intros [|c s] Hne; [congruence|].
    destruct (quo C c) eqn:Hc.
    2: { left. eexists. apply it_plain_first. assumption. }
    destruct s as [|c' s'].
    { right. eauto. }
    destruct (exists_last (l := c' :: s')) as (mid & q' & E); [discriminate|].
    rewrite E. destruct (quo C q') eqn:Hq'.
    - left. eexists. apply it_quoted; assumption.
    - left. exists ((c :: mid) ++ [q']). apply (it_plain_last C (c :: mid) q'). assumption.
  Qed.

  Lemma lone_loop_spec : forall n s, length s <= n -> lone_quote C s ->
    forall cmd v front fuel acc,
    in_view cmd v -> view_bytes cmd v = front ++ s -> length s < fuel ->
    splitGroup_loop sg cfg cmd v fuel (length front) acc = Fault AssertFailed.
  Proof.
    induction n as [|n IHn]; intros s Hn H cmd v front fuel acc Hin Hb Hfuel;
      (destruct fuel as [|fuel]; [lia|]);
      pose proof (view_bytes_length cmd v Hin) as Hl.
    - exfalso. destruct s; [|cbn in Hn; lia].
      inversion H as [ws q rest Hws Hraw Hend Hq Heq|ws s0 rest Hws [Hne _] Hend Hrec Heq].
      + destruct ws; discriminate.
      + destruct ws; [|discriminate]. destruct s0; [congruence|discriminate].
    - inversion H as [ws q rest Hws Hraw Hend Hq Heq|ws s0 rest Hws Hraw Hend Hrec Heq].
      + subst s.
        rewrite (split_iter cmd v front ws q [] rest fuel acc); try assumption.
        cbn zeta. rewrite Hq.
        rewrite app_assoc.
        pose proof (view_at_last cmd v (front ++ ws) [] q rest Hin) as Hv. cbn [app] in Hv.
        rewrite Hv by (rewrite Hb; norm_app; reflexivity).
        cbn [bind]. rewrite Hq. cbv iota beta.
        unfold size_sub. rewrite leb_false; [reflexivity|].
        rewrite !app_length. cbn. lia.
      + subst s. destruct s0 as [|c s0]; [destruct Hraw; congruence|].
        destruct (item_text_cases (c :: s0)) as [(t & Ht)|(q & Eq & Hq)]; [discriminate| |].
        * destruct (item_sub cmd v front ws c s0 t rest fuel acc) as (u & Bu & Iu & O1 & O2 & E);
            try assumption.
          rewrite E. clear E.
          assert (Hlen : length rest + length (c :: s0) <= S n).
          { rewrite !app_length in Hn. cbn in *. lia. }
          cbn [length] in Hlen. rewrite !app_length in Hfuel. cbn [length] in Hfuel.
          destruct rest as [|x rest].
          { exfalso. inversion Hrec as [ws' q rest' Hws' Hraw' Hend' Hq' Heq'|ws' s' rest' Hws' [Hne _] Hend' Hrec' Heq'].
            - destruct ws'; discriminate.
            - destruct ws'; [|discriminate]. destruct s'; [congruence|discriminate]. }
          destruct Hend as [Hx _]. apply lone_skip in Hrec; [|assumption].
          cbn [length] in *.
          replace (S (length (front ++ ws ++ c :: s0)))
            with (length (front ++ ws ++ (c :: s0) ++ [x])).
          2: { clear; repeat (rewrite !app_length; cbn [length app]); lia. }
          apply (IHn rest ltac:(lia) Hrec); try assumption; [|lia].
          rewrite Hb; norm_app; reflexivity.
        * (* a lone quote earlier *)
          injection Eq as -> ->.
          rewrite (split_iter cmd v front ws q [] rest fuel acc); try assumption.
          cbn zeta. rewrite Hq.
          rewrite app_assoc.
          pose proof (view_at_last cmd v (front ++ ws) [] q rest Hin) as Hv. cbn [app] in Hv.
          rewrite Hv by (rewrite Hb; norm_app; reflexivity).
          cbn [bind]. rewrite Hq. cbv iota beta.
          unfold size_sub. rewrite leb_false; [reflexivity|].
          rewrite !app_length. cbn. lia.
  Qed.

  Lemma splitGroup_lone : forall cmd v, in_view cmd v -> lone_quote C (view_bytes cmd v) ->
    splitGroup sg cfg cmd v = Fault AssertFailed.
  Proof.
    intros cmd v Hin H. unfold splitGroup.
    apply (lone_loop_spec (length (view_bytes cmd v)) (view_bytes cmd v) (le_n _) H
             cmd v [] (S (v_len v)) []); [assumption|reflexivity|].
    rewrite view_bytes_length by assumption. lia.
  Qed.

  Lemma walk_exists : forall l b, exists s rest,
    l = s ++ rest /\ walk_ok b s /\ walk_end b s rest /\
    (forall c l', l = c :: l' -> (sep C c = true -> b = true) -> s <> []).
  Proof.
    induction l as [|c l IH]; intros b.
    - exists [], []. repeat split; [|intros; discriminate].
      intros p c r He. destruct p; discriminate.
    - destruct (sep C c && negb b) eqn:Hs.
      + apply andb_true_iff in Hs. destruct Hs as [Hc Hb]. destruct b; [discriminate|].
        exists [], (c :: l). repeat split.
        * intros p x r He. destruct p; discriminate.
        * assumption.
        * intros c' l' He Hsep. injection He as <- <-. specialize (Hsep Hc). discriminate.
      + destruct (IH (xorb b (quo C c))) as (s & rest & -> & Hw & He & _).
        exists (c :: s), rest. repeat split.
        * apply walk_ok_cons. split; [|assumption]. intros Hc. rewrite Hc in Hs.
          destruct b; [reflexivity|discriminate].
        * now apply walk_end_cons.
        * discriminate.
  Qed.

  Lemma splits_total : forall s, (exists items, splits C s items) \/ lone_quote C s.
  Proof.
    intros s. remember (length s) as n eqn:Hn. revert s Hn.
    induction n as [n IH] using lt_wf_ind. intros s Hn.
    destruct (span_exists _ (sep C) s) as (ws & s1 & -> & Hws & Hstop).
    destruct s1 as [|c s1].
    { left. exists []. rewrite app_nil_r. now constructor. }
    destruct (walk_exists (c :: s1) false) as (s & rest & Hs & Hw & He & Hne).
    rewrite Hs.
    assert (Hsne : s <> []).
    { eapply Hne; [reflexivity|]. cbn in Hstop. congruence. }
    assert (Hraw : raw_item C s).
    { split; [assumption|]. intros p x r E Hx. specialize (Hw p x r E Hx).
      now rewrite xorb_false_l in Hw. }
    assert (Hend : item_end C s rest).
    { destruct rest; cbn [item_end walk_end] in *; [exact I|]. now rewrite xorb_false_l in He. }
    destruct (item_text_cases s Hsne) as [(t & Ht)|(q & -> & Hq)].
    - destruct (IH (length rest)) with (s := rest) as [(items & Hi)|Hi]; try reflexivity.
      + subst n. rewrite app_length. rewrite Hs, app_length. destruct s; [congruence|]. cbn. lia.
      + left. eexists. econstructor; eassumption.
      + right. apply lone_later; assumption.
    - right. apply (lone_here C ws q rest); assumption.
  Qed.

  (** * Arguments *)

  Inductive varg := VPos (t : token) | VNamed (k t : token).

  Definition arg_sem (cmd : bytes) (a : varg) : sarg :=
    match a with
    | VPos t => APos (tok_sem cmd t)
    | VNamed k t => ANamed (view_bytes cmd (t_value k)) (tok_sem cmd t)
    end.

  Definition varg_ok (cmd : bytes) (a : varg) : Prop :=
    match a with
    | VPos t => tok_ok cmd t
    | VNamed k t => tok_ok cmd k /\ tok_ok cmd t
    end.

  Fixpoint eval (cmd : bytes) (l : list varg) (A : list vvalue) (N : list (view * vvalue))
    : outcome (list vvalue * list (view * vvalue)) :=
    match l with
    | [] => Done (A, N)
    | VPos t :: l => v <- createValue sg cfg cmd t ;; eval cmd l (A ++ [v]) N
    | VNamed k t :: l => v <- createValue sg cfg cmd t ;; eval cmd l A (N ++ [(t_value k, v)])
    end.

  Definition finish (cmd : bytes) (tokens : list token) (o : outcome (expected pstate))
    : outcome (expected (list vvalue * list (view * vvalue))) :=
    r <- o ;;
    match r with
    | Error e => Done (Error e)
    | Value st =>
        if nextSecondary st then Done (Error err_found_end)
        else
          st <- addCurrentTokens sg cfg cmd tokens st ;;
          Done (Value (p_args st, p_named st))
    end.

  Definition conclude {X : Type} (st : option arg_error) (r : X) : outcome (expected X) :=
    match st with
    | None => Done (Value r)
    | Some e => Done (Error (message (EArg e)))
    end.

  Lemma tok_type_assign : forall cmd t, is_assign (tok_sem cmd t) = true <-> t_type t = TAssignment.
  Proof. intros cmd [[] v]; cbn; split; congruence. Qed.

  Lemma token_at_mid : forall pre (t : token) post,
    token_at (pre ++ t :: post) (length pre) = Done t.
  Proof.
    intros pre t post. unfold token_at. rewrite nth_error_app2 by lia.
    rewrite Nat.sub_diag. reflexivity.
  Qed.

  Lemma bind_assoc : forall (A B D : Type) (x : outcome A) (f : A -> outcome B) (g : B -> outcome D),
    bind (bind x f) g = bind x (fun a => bind (f a) g).
  Proof. intros A B D [a|e] f g; reflexivity. Qed.

  Lemma bind_ext : forall (A B : Type) (x : outcome A) (f g : A -> outcome B),
    (forall a, f a = g a) -> bind x f = bind x g.
  Proof. intros A B [a|e] f g H; [apply H|reflexivity]. Qed.

  Lemma nonassign_step : forall cmd tokens i t A N,
    is_assign (tok_sem cmd t) = false ->
    arg_step sg cfg cmd tokens i t (PState None None false A N) =
    Done (Value (PState (Some i) None false A N)).
  Proof. intros cmd tokens i [[] v] A N H; cbn in *; try discriminate; reflexivity. Qed.

  Lemma pending_step : forall cmd pre vt vt2 vts A N,
    is_assign (tok_sem cmd vt2) = false ->
    arg_step sg cfg cmd (pre ++ vt :: vt2 :: vts) (S (length pre)) vt2
             (PState (Some (length pre)) None false A N) =
    (v <- createValue sg cfg cmd vt ;;
     Done (Value (PState (Some (S (length pre))) None false (A ++ [v]) N))).
  Proof.
    intros cmd pre vt vt2 vts A N H. unfold arg_step, addCurrentTokens.
    cbn [primary secondary nextSecondary p_args p_named].
    rewrite token_at_mid. cbn [bind].
    destruct (t_type vt2) eqn:Ht.
    - rewrite bind_assoc. reflexivity.
    - rewrite bind_assoc. reflexivity.
    - apply tok_type_assign with (cmd := cmd) in Ht. congruence.
  Qed.

  Lemma assign_step : forall cmd tokens i j vt2 A N,
    t_type vt2 = TAssignment ->
    arg_step sg cfg cmd tokens i vt2 (PState (Some j) None false A N) =
    Done (Value (PState (Some j) None true A N)).
  Proof. intros cmd tokens i j vt2 A N H. unfold arg_step. rewrite H. reflexivity. Qed.

  Lemma secondary_step : forall cmd pre vk va vt vts A N,
    is_assign (tok_sem cmd vt) = false ->
    arg_step sg cfg cmd (pre ++ vk :: va :: vt :: vts) (S (S (length pre))) vt
             (PState (Some (length pre)) None true A N) =
    (v <- createValue sg cfg cmd vt ;;
     Done (Value (PState None None false A (N ++ [(t_value vk, v)])))).
  Proof.
    intros cmd pre vk va vt vts A N H. unfold arg_step, addCurrentTokens.
    cbn [primary secondary nextSecondary p_args p_named].
    rewrite token_at_mid. cbn [bind].
    assert (E : token_at (pre ++ vk :: va :: vt :: vts) (S (S (length pre))) = Done vt).
    { replace (S (S (length pre))) with (length (pre ++ [vk; va]))
        by (rewrite app_length; cbn; lia).
      replace (pre ++ vk :: va :: vt :: vts) with ((pre ++ [vk; va]) ++ vt :: vts)
        by (rewrite <- app_assoc; reflexivity).
      apply token_at_mid. }
    rewrite E. cbn [bind].
    destruct (t_type vt) eqn:Ht.
    - rewrite bind_assoc. reflexivity.
    - rewrite bind_assoc. reflexivity.
    - apply tok_type_assign with (cmd := cmd) in Ht. congruence.
  Qed.

  Lemma arg_loop_pending : forall ts args st, args_of ts args st ->
    forall cmd pre vt vts A N,
    map (tok_sem cmd) (vt :: vts) = ts -> is_assign (tok_sem cmd vt) = false ->
    Forall (tok_ok cmd) (vt :: vts) ->
    exists vargs, map (arg_sem cmd) vargs = args /\ Forall (varg_ok cmd) vargs /\
      finish cmd (pre ++ vt :: vts)
             (arg_loop sg cfg cmd (pre ++ vt :: vts) vts (S (length pre))
                       (PState (Some (length pre)) None false A N)) =
      (r <- eval cmd vargs A N ;; conclude st r).
  Proof.
    intros ts args st H. induction H as
      [|t ts args st Ht Hnext Hargs IH|k w t ts args st Hk Ht Hargs IH|ts|k ts Hk|k Hk];
      intros cmd pre vt vts A N Hmap Hvt Hok.
    - discriminate.
    - (* positional *)
      injection Hmap as Et Ets. destruct vts as [|vt2 vts].
      + cbn in Ets. subst ts. inversion Hargs; subst.
        exists [VPos vt]. split; [reflexivity|]. split; [inversion Hok; constructor; auto|].
        unfold finish, addCurrentTokens. cbn [arg_loop bind nextSecondary primary secondary p_args p_named].
        rewrite token_at_mid. cbn [bind eval]. rewrite !bind_assoc. reflexivity.
      + inversion Hok as [|? ? Hok1 Hok2]; subst.
        assert (Hn2 : is_assign (tok_sem cmd vt2) = false).
        { cbn in Hnext. destruct (tok_sem cmd vt2); [reflexivity|reflexivity|discriminate]. }
        cbn [arg_loop]. rewrite pending_step by assumption.
        destruct (createValue sg cfg cmd vt) as [v|f] eqn:Ev.
        * cbn [bind].
          destruct (IH cmd (pre ++ [vt]) vt2 vts (A ++ [v]) N) as (vargs & E1 & E2 & E3);
            try assumption; try reflexivity.
          exists (VPos vt :: vargs). split; [cbn; congruence|]. split; [constructor; assumption|].
          replace (S (length pre)) with (length (pre ++ [vt])) by (rewrite app_length; cbn; lia).
          replace (pre ++ vt :: vt2 :: vts) with ((pre ++ [vt]) ++ vt2 :: vts)
            by (rewrite <- app_assoc; reflexivity).
          rewrite E3. cbn [eval]. rewrite Ev. reflexivity.
        * destruct (IH cmd (pre ++ [vt]) vt2 vts A N) as (vargs & E1 & E2 & _);
            try assumption; try reflexivity.
          exists (VPos vt :: vargs). split; [cbn; congruence|]. split; [constructor; assumption|].
          cbn [eval bind finish]. rewrite Ev. reflexivity.
    - (* named *)
      destruct vts as [|va [|vt2 vts]]; try discriminate.
      cbn [map] in Hmap. injection Hmap as Ek Ea Et Ets.
      inversion Hok as [|? ? Hokk Hok']; subst. inversion Hok' as [|? ? _ Hok2]; subst.
      inversion Hok2 as [|? ? Hokt Hok3]; subst.
      assert (Ha : t_type va = TAssignment).
      { apply (tok_type_assign cmd). now rewrite Ea. }
      assert (Ew : view_bytes cmd (t_value vt) = w).
      { destruct vt as [[] v]; cbn in Hk; inversion Hk; reflexivity. }
      cbn [arg_loop]. rewrite assign_step by assumption. cbn [bind].
      rewrite secondary_step by assumption.
      (* the rest, without a pending token *)
      assert (IH' : forall A N, exists vargs,
        map (arg_sem cmd) vargs = args /\ Forall (varg_ok cmd) vargs /\
        finish cmd (pre ++ vt :: va :: vt2 :: vts)
               (arg_loop sg cfg cmd (pre ++ vt :: va :: vt2 :: vts) vts (S (S (S (length pre))))
                         (PState None None false A N)) =
        (r <- eval cmd vargs A N ;; conclude st r)).
      { intros A' N'. destruct vts as [|vt3 vts].
        - inversion Hargs; subst. exists []. repeat split. constructor.
        - destruct (is_assign (tok_sem cmd vt3)) eqn:E3.
          + assert (Ea3 : tok_sem cmd vt3 = SAssign) by (destruct (tok_sem cmd vt3); cbn in E3; congruence).
            cbn [map] in Hargs. rewrite Ea3 in Hargs.
            inversion Hargs as [|? ? ? ? Hx| ? ? ? ? ? ? Hx| |? ? Hx|? Hx]; subst; try (cbn in Hx; discriminate).
            * inversion Hx.
            * exists []. repeat split; [constructor|].
              cbn [arg_loop]. unfold arg_step.
              apply tok_type_assign in E3. rewrite E3. reflexivity.
          + cbn [arg_loop]. rewrite nonassign_step by assumption. cbn [bind].
            destruct (IH cmd (pre ++ [vt; va; vt2]) vt3 vts A' N') as (vargs & E1 & E2 & E4);
              try assumption; try reflexivity.
            exists vargs. split; [assumption|]. split; [assumption|].
            replace (S (S (S (length pre)))) with (length (pre ++ [vt; va; vt2]))
              by (rewrite app_length; cbn; lia).
            replace (pre ++ vt :: va :: vt2 :: vt3 :: vts) with ((pre ++ [vt; va; vt2]) ++ vt3 :: vts)
              by (rewrite <- app_assoc; reflexivity).
            exact E4. }
      destruct (createValue sg cfg cmd vt2) as [v|f] eqn:Ev.
      + cbn [bind]. destruct (IH' A (N ++ [(t_value vt, v)])) as (vargs & E1 & E2 & E3).
        exists (VNamed vt vt2 :: vargs).
        split; [cbn [map arg_sem]; congruence|]. split; [constructor; cbn; auto|].
        rewrite E3. cbn [eval]. rewrite Ev. reflexivity.
      + destruct (IH' A N) as (vargs & E1 & E2 & _).
        exists (VNamed vt vt2 :: vargs).
        split; [cbn [map arg_sem]; congruence|]. split; [constructor; cbn; auto|].
        cbn [eval bind finish]. rewrite Ev. reflexivity.
    - (* no name: excluded *)
      cbn [map] in Hmap. injection Hmap as Et _. rewrite Et in Hvt. discriminate.
    - (* = = *)
      destruct vts as [|va [|va2 vts]]; try discriminate.
      cbn [map] in Hmap. injection Hmap as Ek Ea Ea2 Ets.
      assert (Ha : t_type va = TAssignment) by (apply (tok_type_assign cmd); now rewrite Ea).
      assert (Ha2 : t_type va2 = TAssignment) by (apply (tok_type_assign cmd); now rewrite Ea2).
      exists []. repeat split; [constructor|].
      cbn [arg_loop]. rewrite assign_step by assumption. cbn [bind].
      unfold arg_step. rewrite Ha2. reflexivity.
    - (* = end *)
      destruct vts as [|va [|va2 vts]]; try discriminate.
      cbn [map] in Hmap. injection Hmap as Ek Ea.
      assert (Ha : t_type va = TAssignment) by (apply (tok_type_assign cmd); now rewrite Ea).
      exists []. repeat split; [constructor|].
      cbn [arg_loop]. rewrite assign_step by assumption. reflexivity.
  Qed.

  Lemma arg_loop_spec : forall ts args st, args_of ts args st ->
    forall cmd pre vts A N,
    map (tok_sem cmd) vts = ts -> Forall (tok_ok cmd) vts ->
    exists vargs, map (arg_sem cmd) vargs = args /\ Forall (varg_ok cmd) vargs /\
      finish cmd (pre ++ vts)
             (arg_loop sg cfg cmd (pre ++ vts) vts (length pre)
                       (PState None None false A N)) =
      (r <- eval cmd vargs A N ;; conclude st r).
  Proof.
    intros ts args st H cmd pre vts A N Hmap Hok.
    destruct vts as [|vt vts].
    - cbn in Hmap. subst ts. inversion H; subst. exists []. repeat split; constructor.
    - destruct (is_assign (tok_sem cmd vt)) eqn:E.
      + assert (Ea : tok_sem cmd vt = SAssign) by (destruct (tok_sem cmd vt); cbn in E; congruence).
        cbn [map] in Hmap. rewrite Ea in Hmap. subst ts.
        inversion H as [|? ? ? ? Hx| ? ? ? ? ? ? Hx| |? ? Hx|? Hx]; subst; try (cbn in Hx; discriminate).
        * inversion Hx.
        * exists []. repeat split; [constructor|].
          cbn [arg_loop]. unfold arg_step. apply tok_type_assign in E. rewrite E. reflexivity.
      + cbn [arg_loop]. rewrite nonassign_step by assumption. cbn [bind].
        eapply arg_loop_pending; eassumption.
  Qed.

  Definition views_ok (cmd : bytes) (vs : vvalue) : Prop := Forall (in_view cmd) vs.

  Lemma createValue_spec : forall cmd t v,
    tok_ok cmd t -> val_of C (tok_sem cmd t) v ->
    exists us, createValue sg cfg cmd t = Done us /\ map (view_bytes cmd) us = v /\ views_ok cmd us.
  Proof.
    intros cmd [ty vw] v [Hin _] H. unfold tok_sem in H. cbn [t_type t_value] in *.
    destruct ty; inversion H; subst.
    - exists [vw]. repeat split. constructor; [assumption|constructor].
    - unfold createValue. cbn [t_type t_value].
      destruct (splitGroup_spec cmd vw v Hin) as (us & E1 & E2 & E3); [assumption|].
      exists us. split; [exact E1|]. split; [assumption|].
      eapply Forall_impl; [|exact E3]. cbn. tauto.
  Qed.

  Lemma createValue_lone : forall cmd t w,
    tok_ok cmd t -> tok_sem cmd t = SGrp w -> lone_quote C w ->
    createValue sg cfg cmd t = Fault AssertFailed.
  Proof.
    intros cmd [ty vw] w [Hin _] H Hl. unfold tok_sem in H. cbn [t_type t_value] in *.
    destruct ty; inversion H; subst. unfold createValue. cbn [t_type t_value].
    now apply splitGroup_lone.
  Qed.

  Lemma val_total : forall t, is_assign t = false ->
    (exists v, val_of C t v) \/ (exists w, t = SGrp w /\ lone_quote C w).
  Proof.
    intros [w|w|] H; [| |discriminate].
    - left. eexists. constructor.
    - destruct (splits_total w) as [(items & Hi)|Hi].
      + left. eexists. constructor. eassumption.
      + right. eauto.
  Qed.

  Lemma eval_ok : forall cmd vargs args pos named,
    input_of C args pos named -> map (arg_sem cmd) vargs = args -> Forall (varg_ok cmd) vargs ->
    forall A N, exists A' N',
    eval cmd vargs A N = Done (A ++ A', N ++ N') /\
    map (map (view_bytes cmd)) A' = pos /\ Forall (views_ok cmd) A' /\
    map (fun kv => (view_bytes cmd (fst kv), map (view_bytes cmd) (snd kv))) N' = named /\
    Forall (fun kv => in_view cmd (fst kv) /\ views_ok cmd (snd kv)) N'.
  Proof.
    intros cmd vargs args pos named H. revert vargs.
    induction H as [|t v args pos named Hv H IH|k t v args pos named Hv H IH];
      intros vargs Hmap Hok A N.
    - destruct vargs; [|discriminate]. exists [], []. rewrite !app_nil_r. repeat split; constructor.
    - destruct vargs as [|[vt|vk vt] vargs]; try discriminate.
      cbn [map arg_sem] in Hmap. injection Hmap as Et Eargs.
      inversion Hok as [|? ? Hok1 Hok2]; subst. cbn in Hok1.
      destruct (createValue_spec cmd vt v) as (us & E1 & E2 & E3); [assumption|assumption|].
      destruct (IH vargs eq_refl Hok2 (A ++ [us]) N) as (A' & N' & F1 & F2 & F3 & F4 & F5).
      exists (us :: A'), N'. cbn [eval]. rewrite E1. cbn [bind]. rewrite F1.
      split; [now rewrite <- app_assoc|]. repeat split; try assumption.
      + cbn. congruence.
      + constructor; assumption.
    - destruct vargs as [|[vt|vk vt] vargs]; try discriminate.
      cbn [map arg_sem] in Hmap. injection Hmap as Ek Et Eargs.
      inversion Hok as [|? ? Hok1 Hok2]; subst. cbn in Hok1. destruct Hok1 as [Hokk Hokt].
      destruct (createValue_spec cmd vt v) as (us & E1 & E2 & E3); [assumption|assumption|].
      destruct (IH vargs eq_refl Hok2 A (N ++ [(t_value vk, us)])) as (A' & N' & F1 & F2 & F3 & F4 & F5).
      exists A', ((t_value vk, us) :: N'). cbn [eval]. rewrite E1. cbn [bind]. rewrite F1.
      split; [now rewrite <- app_assoc|]. repeat split; try assumption.
      + cbn. congruence.
      + constructor; [|assumption]. cbn. split; [apply Hokk|assumption].
  Qed.

  Lemma args_of_values : forall ts args st, args_of ts args st ->
    forall a, In a args -> match a with APos t | ANamed _ t => is_assign t = false end.
  Proof.
    intros ts args st H.
    induction H as [|t ts args st Ht Hn H IH|k w t ts args st Hk Ht H IH| | | ];
      intros a Ha; cbn [In] in Ha; try contradiction.
    - destruct Ha as [<-|Ha]; [assumption|now apply IH].
    - destruct Ha as [<-|Ha]; [assumption|now apply IH].
  Qed.

  Definition arg_val (a : sarg) : stok := match a with APos t | ANamed _ t => t end.

  Lemma has_lone_cons : forall a args,
    has_lone_quote C (a :: args) <->
    ((exists w, arg_val a = SGrp w /\ lone_quote C w) \/ has_lone_quote C args).
  Proof.
    intros a args. split.
    - intros (w & Hw & [Hin|(k & Hin)]).
      + destruct Hin as [->|Hin]; [left; exists w; split; [reflexivity|assumption]|]. right. exists w. auto.
      + destruct Hin as [->|Hin]; [left; exists w; split; [reflexivity|assumption]|]. right. exists w. eauto.
    - intros [(w & Ew & Hw)|(w & Hw & H)].
      + exists w. split; [assumption|]. destruct a as [t|k t]; cbn in Ew; subst t.
        * left. now left.
        * right. exists k. now left.
      + exists w. split; [assumption|]. destruct H as [H|(k & H)].
        * left. now right.
        * right. exists k. now right.
  Qed.

  Lemma input_total : forall args,
    (forall a, In a args -> is_assign (arg_val a) = false) ->
    (exists pos named, input_of C args pos named) \/ has_lone_quote C args.
  Proof.
    induction args as [|a args IH]; intros H.
    - left. exists [], []. constructor.
    - destruct (val_total (arg_val a) ltac:(apply H; now left)) as [(v & Hv)|(w & E & Hw)].
      + destruct (IH (fun b Hb => H b (or_intror Hb))) as [(pos & named & Hi)|Hl].
        * left. destruct a as [t|k t]; cbn in Hv; eexists; eexists; constructor; eassumption.
        * right. apply has_lone_cons. auto.
      + right. apply has_lone_cons. left. eauto.
  Qed.

  Lemma eval_lone : forall cmd vargs args,
    has_lone_quote C args -> (forall a, In a args -> is_assign (arg_val a) = false) ->
    map (arg_sem cmd) vargs = args -> Forall (varg_ok cmd) vargs ->
    forall A N, eval cmd vargs A N = Fault AssertFailed.
  Proof.
    intros cmd vargs. induction vargs as [|va vargs IH]; intros args Hl Hv Hmap Hok A N.
    - subst args. destruct Hl as (w & _ & [[]|(k & [])]).
    - cbn [map] in Hmap. subst args. inversion Hok as [|? ? Hok1 Hok2]; subst.
      assert (Hrest : forall a, In a (map (arg_sem cmd) vargs) -> is_assign (arg_val a) = false).
      { intros a Ha. apply Hv. now right. }
      destruct (val_total (arg_val (arg_sem cmd va)) ltac:(apply Hv; now left))
        as [(v & Hval)|(w & E & Hw)].
      + (* this one is fine *)
        assert (Hl' : has_lone_quote C (map (arg_sem cmd) vargs)).
        { apply has_lone_cons in Hl. destruct Hl as [(w & E & Hw)|Hl]; [|assumption].
          exfalso. destruct va as [vt|vk vt]; cbn [arg_sem arg_val] in *.
          - destruct (createValue_spec cmd vt v Hok1 Hval) as (us & E1 & _).
            rewrite (createValue_lone cmd vt w Hok1 E Hw) in E1. discriminate.
          - destruct Hok1 as [_ Hok1].
            destruct (createValue_spec cmd vt v Hok1 Hval) as (us & E1 & _).
            rewrite (createValue_lone cmd vt w Hok1 E Hw) in E1. discriminate. }
        destruct va as [vt|vk vt]; cbn [arg_sem arg_val] in Hval; cbn [eval].
        * destruct (createValue_spec cmd vt v Hok1 Hval) as (us & E1 & _).
          rewrite E1. cbn [bind]. eapply IH; eauto.
        * destruct Hok1 as [_ Hok1].
          destruct (createValue_spec cmd vt v Hok1 Hval) as (us & E1 & _).
          rewrite E1. cbn [bind]. eapply IH; eauto.
      + destruct va as [vt|vk vt]; cbn [arg_sem arg_val] in E; cbn [eval].
        * rewrite (createValue_lone cmd vt w Hok1 E Hw). reflexivity.
        * destruct Hok1 as [_ Hok1]. rewrite (createValue_lone cmd vt w Hok1 E Hw). reflexivity.
  Qed.

  Lemma args_total : forall ts, exists args st, args_of ts args st.
  Proof.
    intros ts. remember (length ts) as n eqn:Hn. revert ts Hn.
    induction n as [n IH] using lt_wf_ind. intros ts Hn.
    destruct ts as [|t ts].
    { eexists; eexists; constructor. }
    destruct (is_assign t) eqn:Et.
    { destruct t; try discriminate. eexists; eexists; apply args_no_name. }
    destruct ts as [|t2 ts].
    { eexists; eexists. apply args_pos; [assumption|reflexivity|constructor]. }
    destruct (is_assign t2) eqn:Et2.
    - destruct t2; try discriminate. destruct ts as [|t3 ts].
      { eexists; eexists. apply args_found_end. assumption. }
      destruct (is_assign t3) eqn:Et3.
      { destruct t3; try discriminate. eexists; eexists. apply args_found_assign. assumption. }
      destruct (IH (length ts)) with (ts := ts) as (args & st & H); try reflexivity.
      { subst n. cbn. lia. }
      destruct t as [w|w|]; [| |discriminate]; eexists; eexists;
        (eapply args_named; [constructor|assumption|eassumption]).
    - destruct (IH (length (t2 :: ts))) with (ts := t2 :: ts) as (args & st & H); try reflexivity.
      { subst n. cbn. lia. }
      eexists; eexists. apply args_pos; [assumption| |eassumption].
      destruct t2; try discriminate; reflexivity.
  Qed.

  (** * Whole commands *)

  Definition of_sinput (i : sinput) : input := Input (s_name i) (s_args i) (s_named i).

  Definition vinput_ok (cmd : bytes) (vi : vinput) : Prop :=
    in_view cmd (vi_name vi) /\ Forall (views_ok cmd) (vi_args vi) /\
    Forall (fun kv => in_view cmd (fst kv) /\ views_ok cmd (snd kv)) (vi_named vi).

  Lemma parse_tokens_finish : forall cmd name rest,
    t_type name = TString ->
    parse_tokens sg cfg cmd (name :: rest) =
    (r <- finish cmd (name :: rest)
            (arg_loop sg cfg cmd (name :: rest) rest 1 (PState None None false [] [])) ;;
     Done (match r with
           | Error e => Error e
           | Value (A, N) => Value (VInput (t_value name) A N)
           end)).
  Proof.
    intros cmd name rest Ht. unfold parse_tokens. rewrite Ht. unfold finish.
    destruct (arg_loop sg cfg cmd (name :: rest) rest 1 (PState None None false [] [])) as [[st|e]|f];
      try reflexivity.
    cbn [bind]. destruct (nextSecondary st); [reflexivity|].
    destruct (addCurrentTokens sg cfg cmd (name :: rest) st) as [st'|f]; reflexivity.
  Qed.

  Lemma c_str_before_nul : forall s, c_str s = before_nul s.
  Proof.
    induction s as [|c s IH]; [reflexivity|]. cbn [c_str before_nul].
    destruct (ascii_dec c (ascii_of_nat 0)) as [->|Hne]; [reflexivity|].
    destruct (N.eqb_spec (uchar c) 0) as [E|E].
    - exfalso. apply Hne. apply uchar_inj. exact E.
    - now rewrite IH.
  Qed.

  Lemma parse_command : forall cmd r, command C cmd r ->
    match r with
    | inl i => exists vi, parse sg cfg cmd = Done (Value vi) /\ vinput_ok cmd vi /\
                          resolve cmd vi = of_sinput i
    | inr e => parse sg cfg cmd = Done (Error (message e))
    end.
  Proof.
    intros cmd r H.
    destruct H as [s Hl|s e Hl|s t ts Hl Ht|s name ts args e Hl Ha Hno|s name ts args pos named Hl Ha Hi];
      pose proof (tokenize_spec _ _ Hl) as Htok; cbn [tok_result] in Htok.
    - destruct Htok as (vts & E & Hm & _). destruct vts; [|discriminate].
      unfold parse. rewrite E. cbn [bind app parse_tokens].
      eexists. split; [reflexivity|]. split.
      + repeat split; cbn; try constructor. unfold in_view. cbn. lia.
      + reflexivity.
    - unfold parse. rewrite Htok. reflexivity.
    - destruct Htok as (vts & E & Hm & Hok). destruct vts as [|vt vts]; [discriminate|].
      cbn [map] in Hm. injection Hm as Et Ets. inversion Hok as [|? ? [Hin Has] _]; subst.
      unfold parse. rewrite E. cbn [bind app]. unfold parse_tokens.
      destruct vt as [[] vw]; cbn [t_type t_value] in *.
      + exfalso. eapply Ht. reflexivity.
      + cbn [tok_sem t_type t_value message]. unfold err_first_token.
        rewrite c_str_before_nul. reflexivity.
      + cbn [tok_sem t_type t_value message]. unfold err_first_token.
        rewrite Has by reflexivity. reflexivity.
    - destruct Htok as (vts & E & Hm & Hok). destruct vts as [|vt vts]; [discriminate|].
      cbn [map] in Hm. injection Hm as Et Ets. inversion Hok as [|? ? Hok1 Hok2]; subst.
      assert (Hty : t_type vt = TString) by (destruct vt as [[] vw]; cbn in *; congruence).
      unfold parse. rewrite E. cbn [bind app]. rewrite parse_tokens_finish by assumption.
      destruct (arg_loop_spec _ _ _ Ha s [vt] vts [] []) as (vargs & E1 & E2 & E3);
        [reflexivity|assumption|].
      cbn [app length] in E3. rewrite E3.
      assert (Hval : forall a, In a args -> is_assign (arg_val a) = false).
      { intros a Ha'. pose proof (args_of_values _ _ _ Ha a Ha'). destruct a; assumption. }
      destruct (input_total args Hval) as [(pos & named & Hi)|Hl2]; [|contradiction].
      destruct (eval_ok s vargs args pos named Hi E1 E2 [] []) as (A' & N' & F1 & _).
      rewrite F1. reflexivity.
    - destruct Htok as (vts & E & Hm & Hok). destruct vts as [|vt vts]; [discriminate|].
      cbn [map] in Hm. injection Hm as Et Ets. inversion Hok as [|? ? Hok1 Hok2]; subst.
      assert (Hty : t_type vt = TString) by (destruct vt as [[] vw]; cbn in *; congruence).
      unfold parse. rewrite E. cbn [bind app]. rewrite parse_tokens_finish by assumption.
      destruct (arg_loop_spec _ _ _ Ha s [vt] vts [] []) as (vargs & E1 & E2 & E3);
        [reflexivity|assumption|].
      cbn [app length] in E3. rewrite E3.
      destruct (eval_ok s vargs args pos named Hi E1 E2 [] []) as (A' & N' & F1 & F2 & F3 & F4 & F5).
      rewrite F1. cbn [bind conclude app]. eexists. split; [reflexivity|]. split.
      + repeat split; cbn; try assumption. apply Hok1.
      + unfold resolve, of_sinput. cbn [vi_name vi_args vi_named s_name s_args s_named].
        rewrite F2, F4. f_equal. destruct vt as [[] vw]; cbn in *; congruence.
  Qed.

  Lemma parse_ill : forall cmd, ill_command C cmd -> parse sg cfg cmd = Fault AssertFailed.
  Proof.
    intros cmd H. destruct H as [s name ts args st Hl Ha Hlone].
    pose proof (tokenize_spec _ _ Hl) as Htok; cbn [tok_result] in Htok.
    destruct Htok as (vts & E & Hm & Hok). destruct vts as [|vt vts]; [discriminate|].
    cbn [map] in Hm. injection Hm as Et Ets. inversion Hok as [|? ? Hok1 Hok2]; subst.
    assert (Hty : t_type vt = TString) by (destruct vt as [[] vw]; cbn in *; congruence).
    unfold parse. rewrite E. cbn [bind app]. rewrite parse_tokens_finish by assumption.
    destruct (arg_loop_spec _ _ _ Ha s [vt] vts [] []) as (vargs & E1 & E2 & E3);
      [reflexivity|assumption|].
    cbn [app length] in E3. rewrite E3.
    rewrite (eval_lone s vargs args); try assumption; [reflexivity|].
    intros a Ha'. pose proof (args_of_values _ _ _ Ha a Ha'). destruct a; assumption.
  Qed.

  Lemma command_total : forall s, (exists r, command C s r) \/ ill_command C s.
  Proof.
    intros s. destruct (lexes_total s) as ([[|t ts]|e] & Hl).
    - left. eexists. now apply cmd_empty.
    - destruct t as [w|w|].
      + destruct (args_total ts) as (args & st & Ha).
        assert (Hval : forall a, In a args -> is_assign (arg_val a) = false).
        { intros a Ha'. pose proof (args_of_values _ _ _ Ha a Ha'). destruct a; assumption. }
        destruct (input_total args Hval) as [(pos & named & Hi)|Hlone].
        * left. destruct st as [e|].
          -- eexists. eapply cmd_arg_error; try eassumption.
             intros Hlone.
             assert (Hill : ill_command C s) by (econstructor; eassumption).
             (* a value cannot both exist and be a lone quote *)
             clear - Hi Hlone. induction Hi as [|t v args pos named Hv Hi IH|k t v args pos named Hv Hi IH].
             ++ destruct Hlone as (w & _ & [[]|(k & [])]).
             ++ apply has_lone_cons in Hlone. destruct Hlone as [(w & E & Hw)|Hlone]; [|auto].
                cbn in E. subst t. inversion Hv as [|? ? Hs]; subst.
                assert (E1 : view_bytes w (whole w) = w) by apply whole_bytes.
                pose proof (splitGroup_spec w (whole w) v (whole_in_view w)) as H1.
                pose proof (splitGroup_lone w (whole w) (whole_in_view w)) as H2.
                rewrite E1 in H1, H2. destruct (H1 Hs) as (us & F & _). rewrite H2 in F by assumption.
                discriminate.
             ++ apply has_lone_cons in Hlone. destruct Hlone as [(w & E & Hw)|Hlone]; [|auto].
                cbn in E. subst t. inversion Hv as [|? ? Hs]; subst.
                assert (E1 : view_bytes w (whole w) = w) by apply whole_bytes.
                pose proof (splitGroup_spec w (whole w) v (whole_in_view w)) as H1.
                pose proof (splitGroup_lone w (whole w) (whole_in_view w)) as H2.
                rewrite E1 in H1, H2. destruct (H1 Hs) as (us & F & _). rewrite H2 in F by assumption.
                discriminate.
          -- eexists. eapply cmd_ok; eassumption.
        * right. econstructor; eassumption.
      + left. eexists. eapply cmd_first; [eassumption|]. discriminate.
      + left. eexists. eapply cmd_first; [eassumption|]. discriminate.
    - left. eexists. eapply cmd_lex_error. eassumption.
  Qed.
End Proofs.
