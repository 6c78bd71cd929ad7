(** Bounds on the work of executions. *)
From Coq Require Import Ascii String NArith ZArith Bool PeanoNat Lia List.
Import ListNotations.
From Verif Require Import Util Base Lexer LexerCost LexerCostProofs StringConv StringConvSpec
  StringConvProofs Serializer UMap UMapSpec UMapProofs UMapCost UMapCostProofs Exec ExecSpec ExecProofs
  ExecCost ExecCostSpec ExecCostProofs.
Local Notation length := List.length.

(** * The number of arguments *)

Section Count.
Variable sg : bool.
Variable cfg : lexer_cfg.

Lemma scan_up : forall p cmd v fuel i j, scan p cmd v fuel i = Done j -> i <= j.
Proof.
  intros p cmd v. induction fuel as [|f IH]; intros i j; cbn [scan].
  - destruct (i <? v_len v); [discriminate|]. intros [= <-]. lia.
  - destruct (i <? v_len v); [|intros [= <-]; lia].
    destruct (view_at cmd v i) as [c|]; [|discriminate]. cbn [bind].
    destruct (p c); [|intros [= <-]; lia]. intros H. apply IH in H. lia.
Qed.

Lemma scan_word_up : forall cmd v fuel i ty r, scan_word sg cfg cmd v fuel i ty = Done r -> i <= fst r.
Proof.
  intros cmd v. induction fuel as [|f IH]; intros i ty r; cbn [scan_word].
  - destruct (i <? v_len v); [discriminate|]. intros [= <-]. cbn. lia.
  - destruct (i <? v_len v); [|intros [= <-]; cbn; lia].
    destruct (view_at cmd v i) as [c|]; [|discriminate]. cbn [bind].
    destruct (char_type_eqb _ _); [|intros [= <-]; cbn; lia]. intros H. apply IH in H. lia.
Qed.

Lemma tokenize_loop_count : forall cmd v fuel i l l',
  tokenize_loop sg cfg cmd v fuel i l = Done (Value l') ->
  length l' <= length l + (v_len v - i).
Proof.
  intros cmd v. induction fuel as [|f IH]; intros i l l'; cbn [tokenize_loop]; [discriminate|].
  destruct (i <? v_len v) eqn:Ei; [|intros [= <-]; lia].
  destruct (scan _ cmd v (v_len v) i) as [j|] eqn:E1; [|discriminate]. apply scan_up in E1. cbn [bind].
  destruct (v_len v <=? j) eqn:E2; [intros [= <-]; lia|]. apply Nat.leb_gt in E2.
  destruct (view_at cmd v j) as [c|]; [|discriminate]. cbn [bind].
  destruct (getCharType sg cfg c).
  - destruct (scan _ cmd v (v_len v) (S j)) as [k|] eqn:E3; [|discriminate]. apply scan_up in E3.
    cbn [bind]. destruct (v_len v <=? k); [destruct (view_at cmd v j); discriminate|].
    destruct (size_sub k (j + 1)); [|discriminate]. cbn [bind].
    destruct (substr v (j + 1) a); [|discriminate]. cbn [bind]. intros H. apply IH in H.
    rewrite app_length in H. cbn in H. lia.
  - destruct (scan _ cmd v (v_len v) (S j)) as [k|] eqn:E3; [|discriminate]. apply scan_up in E3.
    cbn [bind]. destruct (v_len v <=? k); [destruct (view_at cmd v j); discriminate|].
    destruct (size_sub k (j + 1)); [|discriminate]. cbn [bind].
    destruct (substr v (j + 1) a); [|discriminate]. cbn [bind]. intros H. apply IH in H.
    rewrite app_length in H. cbn in H. lia.
  - discriminate.
  - destruct (scan_word sg cfg cmd v (v_len v) (S j) TString) as [[k ty]|] eqn:E3; [|discriminate].
    apply scan_word_up in E3. cbn [bind fst] in *. destruct (size_sub k j); [|discriminate].
    cbn [bind]. destruct (substr v j a); [|discriminate]. cbn [bind]. intros H. apply IH in H.
    rewrite app_length in H. cbn in H. lia.
  - destruct (substr v j 1); [|discriminate]. cbn [bind]. intros H. apply IH in H.
    rewrite app_length in H. cbn in H. lia.
Qed.

Definition pending (st : pstate) : nat :=
  length (p_args st) + length (p_named st) + match primary st with Some _ => 1 | None => 0 end.

Lemma addCurrent_count : forall cmd tokens st st',
  addCurrentTokens sg cfg cmd tokens st = Done st' -> pending st' = pending st /\ primary st' = None.
Proof.
  intros cmd tokens st st'. unfold addCurrentTokens, pending. destruct (primary st) as [p|] eqn:P.
  2: { intros [= <-]. rewrite P. split; [lia|reflexivity]. }
  destruct (token_at tokens p); [|discriminate]. cbn [bind].
  destruct (secondary st) as [q|].
  - destruct (token_at tokens q); [|discriminate]. cbn [bind].
    destruct (createValue _ _ _ _); [|discriminate]. intros [= <-]. cbn. rewrite app_length. cbn.
    split; [lia|reflexivity].
  - destruct (createValue _ _ _ _); [|discriminate]. intros [= <-]. cbn. rewrite app_length. cbn.
    split; [lia|reflexivity].
Qed.

Lemma arg_step_count : forall cmd tokens i t st st',
  arg_step sg cfg cmd tokens i t st = Done (Value st') -> pending st' <= S (pending st).
Proof.
  intros cmd tokens i t st st'. unfold arg_step.
  assert (A : (if nextSecondary st
     then match primary st with
          | Some _ =>
              st0 <- addCurrentTokens sg cfg cmd tokens
                      (PState (primary st) (Some i) (nextSecondary st) (p_args st) (p_named st)) ;;
              Done (Value (PState (primary st0) (secondary st0) false (p_args st0) (p_named st0)))
          | None => Done (Error (lit "Internal error"))
          end
     else st0 <- match primary st with
                 | Some _ => addCurrentTokens sg cfg cmd tokens st
                 | None => Done st
                 end ;;
          Done (Value (PState (Some i) (secondary st0) false (p_args st0) (p_named st0)))) =
     Done (Value st') -> pending st' <= S (pending st)).
  { destruct (nextSecondary st).
    - destruct (primary st) as [p|] eqn:P; [|discriminate].
      destruct (addCurrentTokens _ _ _ _ _) as [s0|] eqn:E; [|discriminate].
      apply addCurrent_count in E. destruct E as [E1 E2]. cbn [bind]. intros [= <-].
      unfold pending in *. cbn in *. rewrite E2 in *. rewrite P. lia.
    - destruct (primary st) as [p|] eqn:P.
      + destruct (addCurrentTokens _ _ _ _ _) as [s0|] eqn:E; [|discriminate].
        apply addCurrent_count in E. destruct E as [E1 E2]. cbn [bind]. intros [= <-].
        unfold pending in *. cbn in *. rewrite E2 in *. rewrite P in *. lia.
      + cbn [bind]. intros [= <-]. unfold pending. cbn. rewrite P. lia. }
  destruct (t_type t); try exact A.
  destruct (primary st) as [p|] eqn:P; [|discriminate]. destruct (nextSecondary st); [discriminate|].
  intros [= <-]. unfold pending. cbn. rewrite P. lia.
Qed.

Lemma arg_loop_count : forall cmd tokens rest i st st',
  arg_loop sg cfg cmd tokens rest i st = Done (Value st') -> pending st' <= length rest + pending st.
Proof.
  intros cmd tokens. induction rest as [|t r IH]; intros i st st'; cbn [arg_loop].
  - intros [= <-]. cbn. lia.
  - destruct (arg_step _ _ _ _ _ _ _) as [[s0|]|] eqn:E; try discriminate.
    apply arg_step_count in E. cbn [bind]. intros H. apply IH in H. cbn [length]. lia.
Qed.

(** Every argument needs a character of its own, and so does the name. *)
Lemma parse_count : forall cmd vi, parse sg cfg cmd = Done (Value vi) ->
  length (vi_args vi) + length (vi_named vi) <= length cmd - 1.
Proof.
  intros cmd vi. unfold parse. destruct (tokenize sg cfg cmd) as [[l|]|] eqn:T; try discriminate.
  apply tokenize_loop_count in T. cbn [whole v_len length] in T. cbn [bind].
  unfold parse_tokens. destruct l as [|first rest]; [intros [= <-]; cbn; lia|].
  destruct (t_type first); try discriminate.
  destruct (arg_loop _ _ _ _ _ _ _) as [[st|]|] eqn:A; try discriminate.
  apply arg_loop_count in A. cbn [bind]. destruct (nextSecondary st); [discriminate|].
  destruct (addCurrentTokens _ _ _ _ _) as [s0|] eqn:C; [|discriminate].
  apply addCurrent_count in C. destruct C as [C1 C2]. intros [= <-]. cbn [vi_args vi_named].
  unfold pending in *. rewrite C2 in C1. cbn in A, T. lia.
Qed.

Lemma parse_input_count : forall cmd inp, parse_input sg cfg cmd = Done (Value inp) ->
  length (i_args inp) + length (i_named inp) <= length cmd - 1.
Proof.
  intros cmd inp. unfold parse_input.
  destruct (parse sg cfg cmd) as [[vi|]|] eqn:P; try discriminate. apply parse_count in P.
  cbn [bind]. intros [= <-]. unfold resolve. cbn [i_args i_named]. rewrite !map_length. exact P.
Qed.
End Count.

(** * The reserved space of the list of arities *)

Lemma zu_length : forall n, (n < 10 -> length (printf_zu n) = 1) /\ (10 <= n -> 2 <= length (printf_zu n)).
Proof.
  intros n. unfold printf_zu, printf_u. split.
  - intros H. apply dec_spec; lia.
  - intros H. destruct (dec_spec (Z.of_nat n)) as (D & _); [lia|].
    remember (dec (Z.of_nat n)) as t. remember (Z.of_nat n) as v.
    destruct D as [c d Hd|s c z d Hs Hd].
    + apply digit_range in Hd. lia.
    + rewrite app_length. apply digits_nonempty in Hs. destruct s; [easy|]. cbn. lia.
Qed.

(** * Entries *)

Definition subs {A} (x : metered A) : list own := snd (fst x).

Lemma subs_mbind : forall A B (x : metered A) (k : A -> metered B),
  subs (mbind x k) = match snd x with Done a => subs x ++ subs (k a) | Fault _ => subs x end.
Proof. intros A B [[w n] [a|f]] k; cbn; [destruct (k a) as [[w' n'] o]|]; reflexivity. Qed.

Section Entries.
Variables W F : Type.
Variable code : F -> functor W F.
Variable sg catching : bool.
Local Notation state := (Exec.state W F).

Lemma run_subs : forall (P : own -> Prop) nm R sid (p : prog W F R),
  (forall s cmd, Forall P (fst (nm s cmd))) -> forall s c, Forall P (subs (run_m sg nm sid s c p)).
Proof.
  intros P nm R sid p H.
  induction p as [r|x|t k IH|t k IH|e k IH|k IH|k IH|i nv k IH|k IH|w k IH|k IH|nme fs k IH
                 |nme k IH|k IH|l k IH|cmd k IH]; intros s c; cbn [run_m]; auto; try constructor.
  - destruct (is_live s sid); auto; constructor.
  - rewrite subs_mbind. cbn [unmetered snd subs fst]. destruct (add sg s nme fs); [apply IH|constructor].
  - rewrite subs_mbind. cbn [unmetered snd subs fst]. destruct (remove sg s nme); [apply IH|constructor].
  - rewrite subs_mbind. cbn [snd subs fst]. destruct (snd (nm s cmd)) as [[s' r]|]; [|apply H].
    apply Forall_app. split; [apply H|apply IH].
Qed.

Lemma run_count : forall g nm R sid (p : prog W F R),
  (forall s cmd, length (fst (nm s cmd)) <= g) -> forall b s c, starts_at_most b p ->
  length (subs (run_m sg nm sid s c p)) <= b * g.
Proof.
  intros g nm R sid p H.
  induction p as [r|x|t k IH|t k IH|e k IH|k IH|k IH|i nv k IH|k IH|w k IH|k IH|nme fs k IH
                 |nme k IH|k IH|l k IH|cmd k IH]; intros b s c B; cbn [run_m starts_at_most] in *;
    auto; try (cbn; lia).
  - destruct (is_live s sid); auto; cbn; lia.
  - rewrite subs_mbind. cbn [unmetered snd subs fst]. destruct (add sg s nme fs); [now apply IH|cbn; lia].
  - rewrite subs_mbind. cbn [unmetered snd subs fst]. destruct (remove sg s nme); [now apply IH|cbn; lia].
  - destruct b as [|b]; [easy|]. rewrite subs_mbind. cbn [snd subs fst].
    specialize (H s cmd). destruct (snd (nm s cmd)) as [[s' r]|]; [|cbn; lia].
    rewrite app_length. specialize (IH r b s' c (B r)). unfold subs in *. cbn [fst] in *. lia.
Qed.

(** The executions started in an execution are those of at most one handler. *)
Definition of_run (nm : nested_m W F) (l : list own) : Prop :=
  l = [] \/ exists f vs sid s c, l = subs (run_m sg nm sid s c (f_body (code f) vs)).

Lemma of_run_tail : forall nm A B (x : metered A) (k : A -> metered B),
  of_run nm (subs x) -> (forall a, subs (k a) = []) -> of_run nm (subs (mbind x k)).
Proof.
  intros nm A B x k H K. rewrite subs_mbind. destruct (snd x); [|exact H].
  now rewrite K, app_nil_r.
Qed.
Lemma of_run_head : forall nm A B (x : metered A) (k : A -> metered B),
  subs x = [] -> (forall a, of_run nm (subs (k a))) -> of_run nm (subs (mbind x k)).
Proof.
  intros nm A B x k H K. rewrite subs_mbind. destruct (snd x).
  - rewrite H. apply K.
  - left. exact H.
Qed.

Lemma convert_subs : forall ps i args, subs (convert_m ps i args) = [].
Proof.
  induction ps as [|T r IH]; intros i args; cbn [convert_m]; [reflexivity|].
  rewrite subs_mbind. cbn [unmetered snd]. destruct (at_ args i); [|reflexivity].
  rewrite subs_mbind. cbn [spend snd]. rewrite subs_mbind, IH.
  destruct (snd (convert_m r (S i) args)); reflexivity.
Qed.

Lemma report_failed_subs : forall ps es c, subs (report_failed_m ps es c) = [].
Proof.
  induction ps as [|T r IH]; intros es c; cbn [report_failed_m]; [reflexivity|].
  destruct (fst es); [apply IH|]. rewrite subs_mbind. cbn [spend snd]. apply IH.
Qed.

Lemma rtext_subs : forall r v, subs (rtext_m r v) = [].
Proof. intros r v. unfold rtext_m. rewrite subs_mbind. cbn [spend snd]. reflexivity. Qed.

Lemma trampoline_subs : forall nm cl s c, of_run nm (subs (invokeTrampoline_m code sg nm cl s c)).
Proof.
  intros nm cl s c. unfold invokeTrampoline_m. apply of_run_head; [apply convert_subs|]. intros es.
  unfold invoke_m. destruct (any_failed _ es).
  - apply of_run_head; [apply report_failed_subs|]. intros. left. reflexivity.
  - apply of_run_head; [reflexivity|]. intros vs. apply of_run_head; [reflexivity|]. intros _.
    apply of_run_tail.
    + right. eauto 10.
    + intros [[s' c'] [v|x]]; [|reflexivity]. rewrite subs_mbind, rtext_subs.
      destruct (snd (rtext_m _ v)); reflexivity.
Qed.

Lemma dispatch_subs : forall nm fs s c, of_run nm (subs (dispatch_m code sg nm fs s c)).
Proof.
  intros nm fs s c. induction fs as [|f r IH]; cbn [dispatch_m]; [left; reflexivity|].
  apply of_run_head; [reflexivity|]. intros _. destruct (_ =? _); [|exact IH].
  apply of_run_tail; [apply trampoline_subs|reflexivity].
Qed.

Lemma expected_subs : forall fs i n acc, subs (expected_loop_m code fs i n acc) = [].
Proof.
  induction fs as [|f r IH]; intros i n acc; cbn [expected_loop_m]; [reflexivity|].
  rewrite subs_mbind. cbn [spend snd]. apply IH.
Qed.

Lemma ctx_subs : forall nm s c, of_run nm (subs (execute_ctx_m code sg catching nm s c)).
Proof.
  intros nm s c. unfold execute_ctx_m. destruct (i_name (cc_input c)); [left; reflexivity|].
  apply of_run_head; [reflexivity|]. intros [cmd|]; [|left; reflexivity].
  apply of_run_tail; [apply dispatch_subs|]. intros [[[s' c'] [[]|x]]|].
  - reflexivity.
  - destruct catching; [destruct x|]; reflexivity.
  - unfold wrongArity_m. rewrite subs_mbind, expected_subs.
    destruct (snd (expected_loop_m _ _ _ _ _)); reflexivity.
Qed.

Lemma input_subs : forall nm s inp, of_run nm (subs (execute_input_m code sg catching nm s inp)).
Proof.
  intros. unfold execute_input_m. apply of_run_tail; [apply ctx_subs|].
  intros [[s' c'] [u|x]]; reflexivity.
Qed.

Lemma text_subs : forall nm s cmd, of_run nm (subs (execute_text_m code sg catching nm s cmd)).
Proof.
  intros. unfold execute_text_m. destruct (s_lexer s); [|left; reflexivity].
  apply of_run_head; [reflexivity|]. intros _. apply of_run_head; [reflexivity|].
  intros [inp|e]; [apply input_subs|left; reflexivity].
Qed.

Lemma of_run_forall : forall (P : own -> Prop) nm l,
  (forall s cmd, Forall P (fst (nm s cmd))) -> of_run nm l -> Forall P l.
Proof.
  intros P nm l H [->|(f & vs & sid & s & c & ->)]; [constructor|]. now apply run_subs.
Qed.

Lemma of_run_count : forall g b nm l,
  (forall f vs, starts_at_most b (f_body (code f) vs)) ->
  (forall s cmd, length (fst (nm s cmd)) <= g) -> of_run nm l -> length l <= b * g.
Proof.
  intros g b nm l B H [->|(f & vs & sid & s & c & ->)]; [cbn; lia|]. now apply run_count.
Qed.

(** * How many executions *)

Lemma nested_count : forall b, (forall f vs, starts_at_most b (f_body (code f) vs)) ->
  forall d s cmd, length (fst (nested_exec_m code sg catching d s cmd)) <=
    match d with O => 0 | S d => geometric b d end.
Proof.
  intros b B. induction d as [|d IH]; intros s cmd; [cbn; lia|]. cbn [nested_exec_m].
  pose proof (text_subs (nested_exec_m code sg catching d) s cmd) as T.
  apply (of_run_count _ b) with (1 := B) (2 := IH) in T.
  destruct (execute_text_m _ _ _ _ _ _) as [[w n] o]. cbn [entered fst subs snd length] in *.
  destruct d; cbn [geometric]; lia.
Qed.

Lemma exec_count : forall b, (forall f vs, starts_at_most b (f_body (code f) vs)) ->
  forall d,
  (forall s inp, S (length (subs (exec_input_m code sg catching d s inp))) <= geometric b d) /\
  (forall s cmd, S (length (subs (exec_text_m code sg catching d s cmd))) <= geometric b d).
Proof.
  intros b B d. split; intros s x.
  - pose proof (input_subs (nested_exec_m code sg catching d) s x) as T.
    apply (of_run_count _ b) with (1 := B) (2 := nested_count b B d) in T.
    unfold exec_input_m. destruct d; cbn [geometric]; lia.
  - pose proof (text_subs (nested_exec_m code sg catching d) s x) as T.
    apply (of_run_count _ b) with (1 := B) (2 := nested_count b B d) in T.
    unfold exec_text_m. destruct d; cbn [geometric]; lia.
Qed.

(** * Every execution *)

Lemma convert_any : forall ps i args, exists k,
  ow (convert_m ps i args) = Own 0 no_work 0 k 0 0 0 0 /\ k <= length ps /\
  (forall es, snd (convert_m ps i args) = Done es -> k = length ps).
Proof.
  induction ps as [|T r IH]; intros i args; cbn [convert_m].
  - exists 0. repeat split; auto.
  - rewrite ow_mbind, snd_mbind. cbn [unmetered snd bind]. destruct (at_ args i) as [v|].
    2: { exists 0. repeat split; [cbn; lia|discriminate]. }
    cbn [bind]. rewrite ow_mbind, snd_mbind. cbn [spend snd bind]. rewrite ow_mbind, snd_mbind.
    destruct (IH (S i) args) as (k & E & L & D). rewrite E. exists (S k).
    destruct (snd (convert_m r (S i) args)) as [es|] eqn:C.
    + repeat split; [apply own_eq; cbn; rewrite ?Nat.add_0_r; auto|cbn; lia|].
      intros. cbn. f_equal. eauto.
    + repeat split; [cbn; lia|discriminate].
Qed.

Lemma errs_le : forall ps es, length (errs_of ps es) <= length ps.
Proof.
  induction ps as [|T r IH]; intros es; cbn [errs_of length]; [lia|].
  specialize (IH (snd es)). destruct (fst es); cbn [length]; lia.
Qed.

Lemma invoke_any : forall nm sid (f : functor W F) s c es, exists k p r,
  ow (invoke_m sg nm sid f s c es) = Own 0 no_work 0 0 k p r 0 /\ k <= 1 /\ p <= k /\
  r <= length (f_params f) /\ (k = 0 \/ r = 0) /\
  (forall s' c' x, snd (invoke_m sg nm sid f s c es) = Done (s', c', inr x) -> r = 0).
Proof.
  intros nm sid f s c es. destruct (any_failed (f_params f) es) eqn:A.
  - rewrite invoke_bad_ow by exact A. eexists 0, 0, _. split; [reflexivity|].
    pose proof (errs_le (f_params f) es). repeat (split; [lia|]).
    intros s' c' x H'. rewrite invoke_same in H'. unfold invoke in H'. rewrite A in H'. discriminate.
  - unfold invoke_m. rewrite A. rewrite ow_mbind. cbn [unmetered snd].
    destruct (take_values (f_params f) es) as [vs|].
    2: { exists 0, 0, 0. split; [reflexivity|]. repeat (split; [lia|]). auto. }
    rewrite ow_mbind. cbn [spend snd]. rewrite ow_mbind, run_ow.
    assert (Z : 0 <= length (f_params f)) by lia.
    destruct (snd (run_m sg nm sid s c (f_body f vs))) as [[[s' c'] [v|x]]|].
    + rewrite ow_mbind, rtext_ow. exists 1, (printed (f_result f)), 0.
      assert (P : printed (f_result f) <= 1) by (destruct (f_result f); cbn; lia).
      split; [|repeat (split; [lia|]); auto].
      destruct (snd (rtext_m (f_result f) v)); apply own_eq; cbn; rewrite ?Nat.add_0_r; auto.
    + exists 1, 0, 0. split; [reflexivity|]. repeat (split; [lia|]). auto.
    + exists 1, 0, 0. split; [reflexivity|]. repeat (split; [lia|]). auto.
Qed.

Lemma trampoline_any : forall nm cl s c, exists k n p r,
  ow (invokeTrampoline_m code sg nm cl s c) = Own 0 no_work 0 k n p r 0 /\ n <= 1 /\ p <= n /\
  r <= k /\ (n = 0 \/ r = 0) /\
  (forall s' c' x, snd (invokeTrampoline_m code sg nm cl s c) = Done (s', c', inr x) -> r = 0).
Proof.
  intros nm cl s c. unfold invokeTrampoline_m. rewrite ow_mbind, snd_mbind.
  destruct (convert_any (f_params (code (snd cl))) 0 (i_args (cc_input c))) as (k & E & L & D).
  rewrite E. destruct (snd (convert_m _ _ _)) as [es|].
  2: { exists k, 0, 0, 0. split; [reflexivity|]. repeat (split; [lia|]). auto. }
  destruct (invoke_any nm (fst cl) (code (snd cl)) s c es) as (n & p & r & E' & H1 & H2 & H3 & H4 & H5).
  rewrite E'. exists k, n, p, r. specialize (D es eq_refl).
  split; [apply own_eq; cbn; rewrite ?Nat.add_0_r; auto|]. repeat (split; [lia|]). exact H5.
Qed.

Lemma dispatch_any : forall nm fs s c, exists a k n p r,
  ow (dispatch_m code sg nm fs s c) = Own 0 no_work a k n p r 0 /\ n <= 1 /\ p <= n /\
  r <= k /\ (n = 0 \/ r = 0) /\ a <= length fs /\ (a = 0 -> k = 0 /\ n = 0) /\
  (snd (dispatch_m code sg nm fs s c) = Done None -> a = length fs /\ k = 0 /\ n = 0) /\
  (forall s' c' x, snd (dispatch_m code sg nm fs s c) = Done (Some (s', c', inr x)) -> r = 0).
Proof.
  intros nm fs s c. induction fs as [|f l IH]; cbn [dispatch_m].
  - exists 0, 0, 0, 0, 0. split; [reflexivity|]. repeat (split; [cbn; lia|]). auto.
  - rewrite ow_mbind, snd_mbind. cbn [spend snd bind].
    destruct (arity (code (snd f)) =? length (i_args (cc_input c))).
    + destruct (trampoline_any nm f s c) as (k & n & p & r & E & H1 & H2 & H3 & H4 & H5).
      rewrite ow_mbind, snd_mbind, E. exists 1, k, n, p, r.
      destruct (snd (invokeTrampoline_m code sg nm f s c)) as [x|] eqn:T; cbn [bind length];
        (split; [apply own_eq; cbn; rewrite ?Nat.add_0_r; auto|]);
        repeat (split; [lia|]); (split; [discriminate|]).
      * intros s' c' y H. injection H as ->. eapply H5. reflexivity.
      * discriminate.
    + destruct IH as (a & k & n & p & r & E & H1 & H2 & H3 & H4 & H5 & H6 & H7 & H8).
      rewrite E. exists (S a), k, n, p, r. cbn [length].
      split; [apply own_eq; cbn; rewrite ?Nat.add_0_r; auto|].
      repeat (split; [lia|]). split; [|exact H8]. intros D. destruct (H7 D). lia.
Qed.

Lemma find_cost : forall (m : umap bytes (command F)) k,
  let w := fst (find_w bytes_eqb (hash_view sg) m k) in
  hashes w = 1 /\ visits w = 0 /\ relinks w = 0 /\ resets w = 0.
Proof. intros m k. cbn zeta. rewrite find_w_fst. apply findNodeIndex_cost. Qed.

Lemma ctx_sane : forall nm s c, sane (ow (execute_ctx_m code sg catching nm s c)).
Proof.
  intros nm s c. unfold execute_ctx_m. destruct (i_name (cc_input c)) as [|ch nr].
  { cbv. repeat split; try lia. }
  rewrite ow_mbind. cbn [snd]. destruct (find_cost (s_commands s) (ch :: nr)) as (F1 & F2 & F3 & F4).
  set (w := fst (find_w bytes_eqb (hash_view sg) (s_commands s) (ch :: nr))) in *.
  destruct (snd (find_w _ _ _ _)) as [[cmd|]|].
  - rewrite ow_mbind.
    destruct (dispatch_any nm (c_functors cmd) s c) as (a & k & n & p & r & E & H1 & H2 & H3 & H4 & H5 & H6 & H7 & H8).
    rewrite E. destruct (snd (dispatch_m _ _ _ _ _ _)) as [[[[s' c'] [[]|x]]|]|] eqn:D.
    + unfold sane. cbn. lia.
    + rewrite (H8 s' c' x eq_refl). destruct catching; [destruct x|]; unfold sane; cbn; lia.
    + destruct (H7 eq_refl) as (-> & -> & ->). unfold wrongArity_m.
      rewrite (ow_mbind_done _ _ _ _
                 (expected_loop code (c_functors cmd) 0 (length (c_functors cmd)) []))
        by apply expected_loop_same.
      rewrite expected_ow. unfold sane. cbn. lia.
    + unfold sane. cbn. lia.
  - unfold sane. cbn. lia.
  - unfold sane. cbn. lia.
Qed.

Lemma input_sane : forall nm s inp, sane (ow (execute_input_m code sg catching nm s inp)).
Proof.
  intros nm s inp. unfold execute_input_m. rewrite ow_mbind.
  pose proof (ctx_sane nm s (CallCtx inp empty_result)) as C.
  destruct (snd (execute_ctx_m _ _ _ _ _ _)) as [[[s' c'] [u|x]]|]; [| |exact C];
    replace (plus_own _ _) with (ow (execute_ctx_m code sg catching nm s (CallCtx inp empty_result)));
    auto; symmetry; apply plus_nothing.
Qed.

Lemma text_sane : forall nm s cmd, sane (ow (execute_text_m code sg catching nm s cmd)).
Proof.
  intros nm s cmd. unfold execute_text_m. destruct (s_lexer s); [|unfold sane; cbn; lia].
  rewrite ow_mbind. cbn [spend snd]. rewrite ow_mbind. cbn [unmetered snd].
  destruct (l cmd) as [[inp|e]|]; [|unfold sane; cbn; lia|unfold sane; cbn; lia].
  pose proof (input_sane nm s inp) as C. destruct (ow (execute_input_m _ _ _ _ _ _)) as [x1 [] x3 x4 x5 x6 x7 x8].
  exact C.
Qed.

Lemma nested_sane : forall d s cmd, Forall sane (fst (nested_exec_m code sg catching d s cmd)).
Proof.
  induction d as [|d IH]; intros s cmd; [constructor|]. cbn [nested_exec_m].
  pose proof (text_sane (nested_exec_m code sg catching d) s cmd) as S.
  pose proof (text_subs (nested_exec_m code sg catching d) s cmd) as T.
  apply of_run_forall with (1 := IH) in T.
  destruct (execute_text_m _ _ _ _ _ _) as [[w n] o]. cbn in *. now constructor.
Qed.

Lemma exec_sane : forall d,
  (forall s inp, Forall sane (fst (entered (exec_input_m code sg catching d s inp)))) /\
  (forall s cmd, Forall sane (fst (entered (exec_text_m code sg catching d s cmd)))).
Proof.
  intros d. split; intros s x.
  - pose proof (input_sane (nested_exec_m code sg catching d) s x) as S.
    pose proof (input_subs (nested_exec_m code sg catching d) s x) as T.
    apply of_run_forall with (1 := nested_sane d) in T. unfold exec_input_m.
    destruct (execute_input_m _ _ _ _ _ _) as [[w n] o]. cbn in *. now constructor.
  - pose proof (text_sane (nested_exec_m code sg catching d) s x) as S.
    pose proof (text_subs (nested_exec_m code sg catching d) s x) as T.
    apply of_run_forall with (1 := nested_sane d) in T. unfold exec_text_m.
    destruct (execute_text_m _ _ _ _ _ _) as [[w n] o]. cbn in *. now constructor.
Qed.
End Entries.

(** * Linear time *)

Lemma enum_length : forall l, 2 <= length l ->
  (Forall (fun n => n < 10) l -> length (enum_text l) = 3 * length l) /\
  (Exists (fun n => 10 <= n) l -> 3 * length l < length (enum_text l)).
Proof.
  assert (T : forall l, l <> [] ->
    (Forall (fun n => n < 10) l -> length (enum_tail l) = 3 * length l + 2) /\
    3 * length l + 2 <= length (enum_tail l) /\
    (Exists (fun n => 10 <= n) l -> 3 * length l + 2 < length (enum_tail l))).
  { induction l as [|n l IH]; [easy|]. intros _. destruct (zu_length n) as [Z1 Z2].
    assert (Z3 : 1 <= length (printf_zu n)).
    { destruct (Nat.lt_ge_cases n 10) as [H|H]; [rewrite (Z1 H); lia|specialize (Z2 H); lia]. }
    destruct l as [|m l].
    - cbn [enum_tail]. rewrite app_length. cbn [length lit list_ascii_of_string]. split; [|split].
      + intros H. inversion H; subst. rewrite Z1 by assumption. reflexivity.
      + lia.
      + intros H. inversion H as [? ? H0|? ? H0]; subst; [specialize (Z2 H0); lia|inversion H0].
    - change (enum_tail (n :: m :: l)) with (lit ", " ++ printf_zu n ++ enum_tail (m :: l)).
      rewrite !app_length. destruct IH as (I1 & I2 & I3); [easy|].
      change (length (lit ", ")) with 2. cbn [length] in *. split; [|split].
      + intros H. inversion H; subst. rewrite Z1, I1 by assumption. lia.
      + lia.
      + intros H. inversion H as [? ? H0|? ? H0]; subst; [specialize (Z2 H0); lia|].
        specialize (I3 H0). lia. }
  intros [|n l] L; [cbn in L; lia|]. cbn [length] in L.
  assert (NE : l <> []) by (destruct l; [cbn in L; lia|easy]).
  destruct (T l NE) as (T1 & T2 & T3). destruct (zu_length n) as [Z1 Z2].
  assert (Z3 : 1 <= length (printf_zu n)).
  { destruct (Nat.lt_ge_cases n 10) as [H|H]; [rewrite (Z1 H); lia|specialize (Z2 H); lia]. }
  cbn [enum_text length]. rewrite app_length. split.
  - intros H. inversion H; subst. rewrite Z1, T1 by assumption. lia.
  - intros H. inversion H as [? ? H0|? ? H0]; subst; [specialize (Z2 H0); lia|].
    specialize (T3 H0). lia.
Qed.
