(** Proofs about the work of the lexer. *)
From Coq Require Import Ascii String NArith ZArith Bool PeanoNat Lia List.
Import ListNotations.
From Verif Require Import Base Lexer LexerCost.

(** * Counting changes nothing *)
Lemma snd_cbind : forall A B (x : counted A) (k : A -> counted B),
  snd (cbind x k) = bind (snd x) (fun a => snd (k a)).
Proof. intros A B [t [a|f]] k; reflexivity. Qed.

Lemma bind_ext : forall A B (o : outcome A) (k k' : A -> outcome B),
  (forall a, k a = k' a) -> bind o k = bind o k'.
Proof. intros A B [a|f] k k' H; cbn; auto. Qed.

Section Same.
Variable sg : bool.
Variable cfg : lexer_cfg.

Lemma isGroupSeparator_same : forall c,
  snd (isGroupSeparator_c sg cfg c) = Done (isGroupSeparator sg cfg c).
Proof.
  intros c. unfold isGroupSeparator_c, isGroupSeparator, isSpace_c, isSpace.
  rewrite snd_cbind. cbn. destruct (found sg (m_spaceCharacters cfg) c); reflexivity.
Qed.

Lemma getCharType_same : forall c, snd (getCharType_c sg cfg c) = Done (getCharType sg cfg c).
Proof.
  intros c. unfold getCharType_c, getCharType, isAssignment_c, isSpace_c, isGroupChar_c, isQuote_c,
    isSpace, isGroupChar, isQuote.
  rewrite snd_cbind. cbn [snd bind]. destruct (N.eqb (uchar c) 61); [reflexivity|].
  rewrite snd_cbind. cbn [snd found_c bind]. destruct (found sg (m_spaceCharacters cfg) c); [reflexivity|].
  rewrite snd_cbind. cbn [snd found_c bind]. destruct (found sg (m_groupParentheses cfg) c); [reflexivity|].
  rewrite snd_cbind. cbn [snd found_c bind]. destruct (found sg (m_quotes cfg) c); reflexivity.
Qed.

Lemma hasType_same : forall t c,
  snd (hasType_c sg cfg t c) = Done (char_type_eqb (getCharType sg cfg c) t).
Proof. intros t c. unfold hasType_c. rewrite snd_cbind, getCharType_same. reflexivity. Qed.

Lemma lacksType_same : forall t c,
  snd (lacksType_c sg cfg t c) = Done (negb (char_type_eqb (getCharType sg cfg c) t)).
Proof. intros t c. unfold lacksType_c. rewrite snd_cbind, getCharType_same. reflexivity. Qed.

Lemma scan_same : forall p q cmd v, (forall c, snd (p c) = Done (q c)) ->
  forall fuel i, snd (scan_c p cmd v fuel i) = scan q cmd v fuel i.
Proof.
  intros p q cmd v H. induction fuel as [|n IH]; intros i; cbn [scan_c scan];
    destruct (i <? v_len v); try reflexivity.
  rewrite snd_cbind. cbn [snd view_at_c]. apply bind_ext. intros c.
  rewrite snd_cbind, H. cbn [bind]. destruct (q c); [apply IH|reflexivity].
Qed.

Lemma view_at_again : forall A cmd v i (k : byte -> byte -> outcome A),
  bind (view_at cmd v i) (fun c => bind (view_at cmd v i) (k c)) =
  bind (view_at cmd v i) (fun c => k c c).
Proof. intros. destruct (view_at cmd v i); reflexivity. Qed.

Lemma scan_item_same : forall cmd v fuel i q,
  snd (scan_item_c sg cfg cmd v fuel i q) = scan_item sg cfg cmd v fuel i q.
Proof.
  intros cmd v. induction fuel as [|n IH]; intros i q; cbn [scan_item_c scan_item];
    destruct (i <? v_len v); try reflexivity.
  rewrite snd_cbind. cbn [snd view_at_c]. destruct (view_at cmd v i) as [c|f] eqn:E; [|reflexivity].
  cbn [bind]. rewrite snd_cbind.
  match goal with |- bind (snd ?x) _ = _ =>
    assert (snd x = Done (q || negb (isGroupSeparator sg cfg c))) as E1 end.
  { destruct q; [reflexivity|]. rewrite snd_cbind, isGroupSeparator_same. reflexivity. }
  rewrite E1. cbn [bind]. destruct (q || negb (isGroupSeparator sg cfg c)); [|reflexivity].
  rewrite snd_cbind. cbn [snd view_at_c]. rewrite E. cbn [bind].
  rewrite snd_cbind. cbn [snd isQuote_c found_c bind]. apply IH.
Qed.

Lemma splitGroup_loop_same : forall cmd v fuel i l,
  snd (splitGroup_loop_c sg cfg cmd v fuel i l) = splitGroup_loop sg cfg cmd v fuel i l.
Proof.
  intros cmd v. induction fuel as [|n IH]; intros i l; cbn [splitGroup_loop_c splitGroup_loop];
    [reflexivity|].
  destruct (i <? v_len v); [|reflexivity].
  rewrite snd_cbind, (scan_same _ (isGroupSeparator sg cfg)) by apply isGroupSeparator_same.
  apply bind_ext. intros j. destruct (v_len v <=? j); [reflexivity|].
  rewrite snd_cbind, scan_item_same. apply bind_ext. intros k.
  rewrite snd_cbind. cbn [snd view_at_c]. apply bind_ext. intros cb.
  rewrite snd_cbind. cbn [snd isQuote_c found_c bind].
  change (found sg (m_quotes cfg) cb) with (isQuote sg cfg cb).
  rewrite snd_cbind.
  match goal with |- bind (snd ?x) _ = _ =>
    assert (snd x = (if isQuote sg cfg cb
             then ce <- view_at cmd v (k - 1);; Done (isQuote sg cfg ce) else Done false)) as E end.
  { destruct (isQuote sg cfg cb); [|reflexivity]. rewrite snd_cbind. reflexivity. }
  rewrite E. apply bind_ext. intros quoted.
  destruct quoted; rewrite snd_cbind; cbn [snd free]; apply bind_ext; intros len;
    rewrite snd_cbind; cbn [snd free]; apply bind_ext; intros sub;
    rewrite snd_cbind; cbn [snd push_c bind]; apply IH.
Qed.

Lemma createValue_same : forall cmd t,
  snd (createValue_c sg cfg cmd t) = createValue sg cfg cmd t.
Proof.
  intros cmd [[| |] v]; try reflexivity. unfold createValue_c, createValue. cbn [t_type t_value].
  apply splitGroup_loop_same.
Qed.

Lemma scan_word_same : forall cmd v fuel i ty,
  snd (scan_word_c sg cfg cmd v fuel i ty) = scan_word sg cfg cmd v fuel i ty.
Proof.
  intros cmd v. induction fuel as [|n IH]; intros i ty; cbn [scan_word_c scan_word];
    destruct (i <? v_len v); try reflexivity.
  rewrite snd_cbind. cbn [snd view_at_c]. destruct (view_at cmd v i) as [c|f] eqn:E; [|reflexivity].
  cbn [bind]. rewrite snd_cbind, hasType_same. cbn [bind].
  destruct (char_type_eqb (getCharType sg cfg c) CString); [|reflexivity].
  rewrite snd_cbind. cbn [snd view_at_c]. rewrite E. cbn [bind].
  rewrite snd_cbind, isGroupSeparator_same. cbn [bind]. apply IH.
Qed.

Lemma tokenize_loop_same : forall cmd v fuel i l,
  snd (tokenize_loop_c sg cfg cmd v fuel i l) = tokenize_loop sg cfg cmd v fuel i l.
Proof.
  intros cmd v. induction fuel as [|n IH]; intros i l; cbn [tokenize_loop_c tokenize_loop];
    [reflexivity|].
  destruct (i <? v_len v); [|reflexivity].
  rewrite snd_cbind, (scan_same _ (fun c => char_type_eqb (getCharType sg cfg c) CSpace))
    by apply hasType_same.
  apply bind_ext. intros j. destruct (v_len v <=? j); [reflexivity|].
  rewrite snd_cbind. cbn [snd view_at_c]. apply bind_ext. intros c.
  rewrite snd_cbind, getCharType_same. cbn [bind].
  destruct (getCharType sg cfg c).
  - rewrite snd_cbind, (scan_same _ (fun c => negb (char_type_eqb (getCharType sg cfg c) CGroup)))
      by apply lacksType_same.
    apply bind_ext. intros k. destruct (v_len v <=? k).
    + rewrite snd_cbind. reflexivity.
    + rewrite snd_cbind. cbn [snd free]. apply bind_ext. intros len.
      rewrite snd_cbind. cbn [snd free]. apply bind_ext. intros sub.
      rewrite snd_cbind. cbn [snd push_c bind]. apply IH.
  - rewrite snd_cbind, (scan_same _ (fun c => negb (char_type_eqb (getCharType sg cfg c) CQuote)))
      by apply lacksType_same.
    apply bind_ext. intros k. destruct (v_len v <=? k).
    + rewrite snd_cbind. reflexivity.
    + rewrite snd_cbind. cbn [snd free]. apply bind_ext. intros len.
      rewrite snd_cbind. cbn [snd free]. apply bind_ext. intros sub.
      rewrite snd_cbind. cbn [snd push_c bind]. apply IH.
  - reflexivity.
  - rewrite snd_cbind, scan_word_same. apply bind_ext. intros [k ty].
    rewrite snd_cbind. cbn [snd free]. apply bind_ext. intros len.
    rewrite snd_cbind. cbn [snd free]. apply bind_ext. intros sub.
    rewrite snd_cbind. cbn [snd push_c bind]. apply IH.
  - rewrite snd_cbind. cbn [snd free]. apply bind_ext. intros sub.
    rewrite snd_cbind. cbn [snd push_c bind]. apply IH.
Qed.

Lemma addCurrentTokens_same : forall cmd tokens st,
  snd (addCurrentTokens_c sg cfg cmd tokens st) = addCurrentTokens sg cfg cmd tokens st.
Proof.
  intros cmd tokens st. unfold addCurrentTokens_c, addCurrentTokens.
  destruct (primary st) as [p|]; [|reflexivity].
  rewrite snd_cbind. cbn [snd free]. apply bind_ext. intros pt.
  destruct (secondary st) as [s|].
  - rewrite snd_cbind. cbn [snd free]. apply bind_ext. intros sec.
    rewrite snd_cbind, createValue_same. apply bind_ext. intros w.
    rewrite snd_cbind. reflexivity.
  - rewrite snd_cbind, createValue_same. apply bind_ext. intros w.
    rewrite snd_cbind. reflexivity.
Qed.

Lemma arg_step_same : forall cmd tokens i t st,
  snd (arg_step_c sg cfg cmd tokens i t st) = arg_step sg cfg cmd tokens i t st.
Proof.
  intros cmd tokens i t st. unfold arg_step_c, arg_step.
  assert (forall (x : counted pstate) (y : outcome pstate) (g : pstate -> expected pstate),
    snd x = y -> snd (cbind x (fun s => cdone (g s))) = bind y (fun s => Done (g s))) as Hs.
  { intros x y g E. rewrite snd_cbind, E. reflexivity. }
  destruct (t_type t), (nextSecondary st), (primary st) as [p|] eqn:Ep; try reflexivity;
    apply Hs; try reflexivity; rewrite <- ?Ep; apply addCurrentTokens_same.
Qed.

Lemma arg_loop_same : forall cmd tokens rest i st,
  snd (arg_loop_c sg cfg cmd tokens rest i st) = arg_loop sg cfg cmd tokens rest i st.
Proof.
  intros cmd tokens. induction rest as [|t rest IH]; intros i st; cbn [arg_loop_c arg_loop];
    [reflexivity|].
  rewrite snd_cbind, arg_step_same. apply bind_ext. intros [st'|e]; [apply IH|reflexivity].
Qed.

Lemma parse_tokens_same : forall cmd tokens,
  snd (parse_tokens_c sg cfg cmd tokens) = parse_tokens sg cfg cmd tokens.
Proof.
  intros cmd [|t rest]; [reflexivity|]. unfold parse_tokens_c, parse_tokens.
  destruct (t_type t); try reflexivity.
  rewrite snd_cbind, arg_loop_same. apply bind_ext. intros [st|e]; [|reflexivity].
  destruct (nextSecondary st); [reflexivity|].
  rewrite snd_cbind, addCurrentTokens_same. reflexivity.
Qed.

Lemma parse_same : forall cmd, snd (parse_c sg cfg cmd) = parse sg cfg cmd.
Proof.
  intros cmd. unfold parse_c, parse. rewrite snd_cbind. unfold tokenize_c, tokenize.
  rewrite tokenize_loop_same. apply bind_ext. intros [l|e]; [apply parse_tokens_same|reflexivity].
Qed.
End Same.

(** * Reads and pushes *)

(** What a computation spends if it finishes with a value, and if it faults. *)
Definition spends {A} (x : counted A) (Q : A -> ticks -> Prop) (F : ticks -> Prop) : Prop :=
  match snd x with Done a => Q a (fst x) | Fault _ => F (fst x) end.

Lemma spends_bind : forall A B (x : counted A) (k : A -> counted B) Q F,
  spends x (fun a t => spends (k a) (fun b u => Q b (plus_ticks t u)) (fun u => F (plus_ticks t u))) F ->
  spends (cbind x k) Q F.
Proof. intros A B [t [a|f]] k Q F H; cbn in *; exact H. Qed.

Lemma spends_weaken : forall A (x : counted A) (Q Q' : A -> ticks -> Prop) (F F' : ticks -> Prop),
  spends x Q F -> (forall a t, Q a t -> Q' a t) -> (forall t, F t -> F' t) -> spends x Q' F'.
Proof. intros A [t [a|f]] Q Q' F F' H HQ HF; cbn in *; auto. Qed.

Lemma spends_done : forall A (a : A) (Q : A -> ticks -> Prop) F,
  Q a (Ticks 0 0 0) -> spends (cdone a) Q F.
Proof. auto. Qed.

Lemma spends_free : forall A (o : outcome A) (Q : A -> ticks -> Prop) (F : ticks -> Prop),
  (forall a, o = Done a -> Q a (Ticks 0 0 0)) -> F (Ticks 0 0 0) -> spends (free o) Q F.
Proof. intros A [a|f] Q F HQ HF; cbn; auto. Qed.

Lemma spends_read : forall cmd v i (Q : byte -> ticks -> Prop) (F : ticks -> Prop),
  (forall c, Q c (Ticks 1 0 0)) -> F (Ticks 1 0 0) -> spends (view_at_c cmd v i) Q F.
Proof. intros. unfold spends, view_at_c. cbn. destruct (view_at cmd v i); auto. Qed.

Lemma spends_at : forall cmd v i (Q : byte -> ticks -> Prop) (F : ticks -> Prop),
  (forall c, view_at cmd v i = Done c -> Q c (Ticks 1 0 0)) -> F (Ticks 1 0 0) ->
  spends (view_at_c cmd v i) Q F.
Proof. intros. unfold spends, view_at_c. cbn. destruct (view_at cmd v i); auto. Qed.

Lemma spends_push : forall A (l : list A) a (Q : list A -> ticks -> Prop) F,
  Q (l ++ [a]) (Ticks 0 0 1) -> spends (push_c l a) Q F.
Proof. auto. Qed.

(** A test reads and pushes nothing. *)
Definition test {A} (x : counted A) : Prop :=
  reads (fst x) = 0 /\ pushes (fst x) = 0 /\ exists a, snd x = Done a.

Lemma spends_test : forall A (x : counted A) (Q : A -> ticks -> Prop) F,
  test x -> (forall a n, snd x = Done a -> Q a (Ticks 0 n 0)) -> spends x Q F.
Proof.
  intros A [[r c p] o] Q F (Hr & Hp & a & E) H. cbn in *. subst. unfold spends. cbn.
  apply H. reflexivity.
Qed.

Lemma test_bind : forall A B (x : counted A) (k : A -> counted B),
  test x -> (forall a, test (k a)) -> test (cbind x k).
Proof.
  intros A B [[r c p] o] k (Hr & Hp & a & E) Hk. cbn in *. subst.
  destruct (Hk a) as (Hr' & Hp' & b & Eb). unfold test, cbind. cbn. rewrite Hr', Hp'. eauto.
Qed.

Lemma test_done : forall A (a : A), test (cdone a).
Proof. intros. split; [|split]; cbn; eauto. Qed.

Section Bounds.
Variable sg : bool.
Variable cfg : lexer_cfg.

Lemma test_found : forall l c, test (found_c sg l c).
Proof. intros. split; [|split]; cbn; eauto. Qed.

Lemma test_separator : forall c, test (isGroupSeparator_c sg cfg c).
Proof.
  intros. apply test_bind; [apply test_found|]. intros [|]; [apply test_done|apply test_found].
Qed.

Lemma test_type : forall c, test (getCharType_c sg cfg c).
Proof.
  intros. apply test_bind; [split; [|split]; cbn; eauto|]. intros [|]; [apply test_done|].
  apply test_bind; [apply test_found|]. intros [|]; [apply test_done|].
  apply test_bind; [apply test_found|]. intros [|]; [apply test_done|].
  apply test_bind; [apply test_found|]. intros [|]; apply test_done.
Qed.

Lemma test_has : forall t c, test (hasType_c sg cfg t c).
Proof. intros. apply test_bind; [apply test_type|]. intros. apply test_done. Qed.

Lemma test_lacks : forall t c, test (lacksType_c sg cfg t c).
Proof. intros. apply test_bind; [apply test_type|]. intros. apply test_done. Qed.

Definition one (b : bool) : nat := if b then 1 else 0.

Ltac ticks := cbn [plus_ticks reads pushes compares] in *; unfold one in *.
Ltac bools := repeat match goal with
  | H : (_ <? _) = true |- _ => apply Nat.ltb_lt in H
  | H : (_ <? _) = false |- _ => apply Nat.ltb_ge in H
  | H : (_ <=? _) = true |- _ => apply Nat.leb_le in H
  | H : (_ <=? _) = false |- _ => apply Nat.leb_gt in H
  end.

Lemma scan_spends : forall p cmd v, (forall c, test (p c)) ->
  forall fuel i,
  spends (scan_c p cmd v fuel i)
    (fun j t => i <= j /\ j <= Nat.max i (v_len v) /\
                reads t = (j - i) + one (j <? v_len v) /\ pushes t = 0 /\
                (j < v_len v -> exists c, view_at cmd v j = Done c /\ snd (p c) = Done false))
    (fun t => reads t <= v_len v - i /\ pushes t = 0).
Proof.
  intros p cmd v Hp. induction fuel as [|n IH]; intros i; cbn [scan_c];
    destruct (i <? v_len v) eqn:E.
  - cbn. bools. lia.
  - apply spends_done. ticks. rewrite E. bools. repeat split; lia.
  - apply spends_bind, spends_at; [|bools; ticks; lia].
    intros c Ec. apply spends_bind, spends_test; [apply Hp|]. intros [|] m Eb.
    + eapply spends_weaken; [apply IH| |].
      * intros j t (H1 & H2 & H3 & H4 & H5). bools. ticks.
        destruct (j <? v_len v) eqn:E'; bools; repeat split; try lia; auto.
      * intros t (H1 & H2). bools. ticks. lia.
    + apply spends_done. ticks. rewrite E. bools. repeat split; try lia. eauto.
  - apply spends_done. ticks. rewrite E. bools. repeat split; lia.
Qed.

Lemma scan_item_spends : forall cmd v fuel i q,
  spends (scan_item_c sg cfg cmd v fuel i q)
    (fun j t => i <= j /\ j <= Nat.max i (v_len v) /\
                reads t = 2 * (j - i) + one (j <? v_len v) /\ pushes t = 0 /\
                (q = false -> fuel <> 0 -> i < v_len v -> forall c, view_at cmd v i = Done c ->
                 snd (isGroupSeparator_c sg cfg c) = Done false -> i < j))
    (fun t => reads t <= 2 * (v_len v - i) /\ pushes t = 0).
Proof.
  intros cmd v. induction fuel as [|n IH]; intros i q; cbn [scan_item_c];
    destruct (i <? v_len v) eqn:E.
  - cbn. bools. lia.
  - apply spends_done. ticks. rewrite E. bools. repeat split; lia.
  - apply spends_bind, spends_at; [|bools; ticks; lia].
    intros c Ec. apply spends_bind, spends_test.
    { destruct q; [apply test_done|]. apply test_bind; [apply test_separator|].
      intros; apply test_done. }
    intros [|] m Eb.
    + apply spends_bind, spends_read; [|bools; ticks; lia].
      intros c'. apply spends_bind, spends_test; [apply test_found|]. intros b m' _.
      eapply spends_weaken; [apply IH| |].
      * intros j t (H1 & H2 & H3 & H4 & _). bools. ticks.
        destruct (j <? v_len v) eqn:E'; bools; repeat split; lia.
      * intros t (H1 & H2). bools. ticks. lia.
    + apply spends_done. ticks. rewrite E. bools. repeat split; try lia.
      intros -> _ _ c' Ec' Hc'. rewrite Ec in Ec'. injection Ec' as <-.
      rewrite snd_cbind, Hc' in Eb. discriminate.
  - apply spends_done. ticks. rewrite E. bools. repeat split; lia.
Qed.

Lemma size_sub_done : forall a b n, size_sub a b = Done n -> b <= a /\ n = a - b.
Proof.
  unfold size_sub. intros a b n. destruct (b <=? a) eqn:E; [|discriminate].
  intros H. injection H as <-. bools. auto.
Qed.

Lemma substr_done : forall v o n s, substr v o n = Done s -> v_len s = n /\ o + n <= v_len v.
Proof.
  unfold substr, assert_. intros v o n s.
  destruct (o <=? v_len v); [|discriminate]. cbn [bind].
  destruct (n <=? v_len v); [|discriminate]. cbn [bind].
  destruct (o + n <=? v_len v) eqn:E; [|discriminate]. cbn [bind].
  intros H. injection H as <-. bools. auto.
Qed.

Definition split_reads (n : nat) : nat := if n =? 0 then 0 else 3 * n + 2.

Lemma split_loop_spends : forall cmd v fuel i l,
  spends (splitGroup_loop_c sg cfg cmd v fuel i l)
    (fun r t => reads t <= split_reads (v_len v - i) /\ pushes t <= v_len v - i)
    (fun t => reads t <= split_reads (v_len v - i) /\ pushes t <= v_len v - i).
Proof.
  intros cmd v. induction fuel as [|n IH]; intros i l; cbn [splitGroup_loop_c].
  - cbn. lia.
  - destruct (i <? v_len v) eqn:E; [|cbn; lia].
    assert (split_reads (v_len v - i) = 3 * (v_len v - i) + 2) as Hs.
    { unfold split_reads. destruct (v_len v - i =? 0) eqn:E0; [|reflexivity].
      apply Nat.eqb_eq in E0. bools. lia. }
    rewrite Hs.
    apply spends_bind. eapply spends_weaken; [apply scan_spends, test_separator| |].
    2: { intros t (H1 & H2). bools. lia. }
    intros j t (J1 & J2 & J3 & J4 & J5). destruct (v_len v <=? j) eqn:E1.
    { apply spends_done. bools. ticks. destruct (j <? v_len v) eqn:E'; bools; lia. }
    assert (j <? v_len v = true) as E1' by (bools; apply Nat.ltb_lt; lia).
    rewrite E1' in J3. bools.
    apply spends_bind. eapply spends_weaken; [apply scan_item_spends| |].
    2: { intros u (H1 & H2). ticks. lia. }
    intros k u (K1 & K2 & K3 & K4 & K5).
    assert (j < k) as Hk.
    { destruct (J5 E1) as (c & Ec & Hc).
      assert (v_len v <> 0) as Hv by lia.
      exact (K5 eq_refl Hv E1 c Ec Hc). }
      apply spends_bind, spends_read.
      2: { ticks. destruct (k <? v_len v) eqn:E'; bools; lia. }
      intros cb. apply spends_bind, spends_test; [apply test_found|]. intros qb m _.
      apply spends_bind.
      assert (forall quoted rq mq, rq <= 1 ->
        spends (let '(b, e) := (if (quoted : bool) then (S j, k - 1) else (j, k)) in
            len <~ free (size_sub e b) ;;
            sub <~ free (substr v b len) ;;
            result' <~ push_c l sub ;;
            splitGroup_loop_c sg cfg cmd v n (S k) result')
          (fun r w => reads (plus_ticks t (plus_ticks u (plus_ticks (Ticks 1 0 0)
                     (plus_ticks (Ticks 0 m 0) (plus_ticks (Ticks rq mq 0) w)))))
                      <= 3 * (v_len v - i) + 2 /\
                      pushes (plus_ticks t (plus_ticks u (plus_ticks (Ticks 1 0 0)
                     (plus_ticks (Ticks 0 m 0) (plus_ticks (Ticks rq mq 0) w)))))
                      <= v_len v - i)
          (fun w => reads (plus_ticks t (plus_ticks u (plus_ticks (Ticks 1 0 0)
                     (plus_ticks (Ticks 0 m 0) (plus_ticks (Ticks rq mq 0) w)))))
                      <= 3 * (v_len v - i) + 2 /\
                      pushes (plus_ticks t (plus_ticks u (plus_ticks (Ticks 1 0 0)
                     (plus_ticks (Ticks 0 m 0) (plus_ticks (Ticks rq mq 0) w)))))
                      <= v_len v - i)) as Hrest.
      { intros quoted rq mq Hrq.
        destruct (if quoted then (S j, k - 1) else (j, k)) as [b e].
        apply spends_bind, spends_free.
        2: { ticks. destruct (k <? v_len v) eqn:E'; bools; lia. }
        intros len _. apply spends_bind, spends_free.
        2: { ticks. destruct (k <? v_len v) eqn:E'; bools; lia. }
        intros sub _. apply spends_bind, spends_push.
        eapply spends_weaken; [apply IH| |].
        - intros r w (W1 & W2). unfold split_reads in W1. ticks.
          destruct (k <? v_len v) eqn:E'; destruct (Nat.eqb_spec (v_len v - S k) 0);
            bools; lia.
        - intros w (W1 & W2). unfold split_reads in W1. ticks.
          destruct (k <? v_len v) eqn:E'; destruct (Nat.eqb_spec (v_len v - S k) 0);
            bools; lia. }
      destruct qb.
      * apply spends_bind, spends_read.
        2: { ticks. destruct (k <? v_len v) eqn:E'; bools; lia. }
        intros ce. apply spends_test; [apply test_found|]. intros q mq _.
        apply (Hrest q 1 mq). lia.
      * apply spends_done. apply (Hrest false 0 0). lia.
Qed.

Lemma scan_word_spends : forall cmd v fuel i ty,
  spends (scan_word_c sg cfg cmd v fuel i ty)
    (fun r t => i <= fst r /\ fst r <= Nat.max i (v_len v) /\
                reads t = 2 * (fst r - i) + one (fst r <? v_len v) /\ pushes t = 0 /\
                (snd r = ty \/ i < fst r) /\ (snd r = TAssignment -> ty = TAssignment))
    (fun t => reads t <= 2 * (v_len v - i) /\ pushes t = 0).
Proof.
  intros cmd v. induction fuel as [|n IH]; intros i ty; cbn [scan_word_c];
    destruct (i <? v_len v) eqn:E.
  - cbn. bools. lia.
  - apply spends_done. cbn [fst snd]. ticks. rewrite E. bools. repeat split; auto; lia.
  - apply spends_bind, spends_read; [|bools; ticks; lia].
    intros c. apply spends_bind, spends_test; [apply test_has|]. intros [|] m _.
    + apply spends_bind, spends_read; [|bools; ticks; lia].
      intros c'. apply spends_bind, spends_test; [apply test_separator|]. intros b m' _.
      eapply spends_weaken; [apply IH| |].
      * intros r t (H1 & H2 & H3 & H4 & _ & H5). bools. ticks.
        destruct (fst r <? v_len v) eqn:E'; bools; repeat split; try lia;
          try (intros Hr; apply H5 in Hr; destruct b; [discriminate|exact Hr]).
      * intros t (H1 & H2). bools. ticks. lia.
    + apply spends_done. cbn [fst snd]. ticks. rewrite E. bools. repeat split; auto; lia.
  - apply spends_done. cbn [fst snd]. ticks. rewrite E. bools. repeat split; auto; lia.
Qed.

(** What making a value of a token costs at most. *)
Definition value_reads (t : token) : nat :=
  match t_type t with TGroupString => split_reads (v_len (t_value t)) | _ => 0 end.
Definition value_pushes (t : token) : nat :=
  S (match t_type t with TGroupString => v_len (t_value t) | _ => 1 end).

Fixpoint total (f : token -> nat) (l : list token) : nat :=
  match l with [] => 0 | t :: r => f t + total f r end.

Lemma total_app : forall f l l', total f (l ++ l') = total f l + total f l'.
Proof. intros f l l'. induction l as [|t l IH]; cbn [total app]; [reflexivity|]. rewrite IH. lia. Qed.

Definition tokenized (v : view) (i : nat) (l : list token)
    (r : expected (list token)) (t : ticks) : Prop :=
  reads t <= 3 * (v_len v - i) /\ pushes t <= v_len v - i /\
  match r with
  | Error _ => True
  | Value l' => exists n, l' = l ++ n /\ v_len v - i <= reads t /\
      total value_reads n <= 4 * (v_len v - i) /\ total value_pushes n <= 2 * (v_len v - i) /\
      total (fun t => v_len (t_value t)) n <= v_len v - i
  end.

Lemma one_le : forall b, one b <= 1.
Proof. intros [|]; cbn; lia. Qed.

Lemma tokenized_push : forall v i k l tk r t u,
  i < k -> k <= v_len v ->
  tokenized v k (l ++ [tk]) r u ->
  reads t <= 3 * (k - i) -> pushes t <= 1 -> k - i <= reads t ->
  value_reads tk <= 4 * (k - i) -> value_pushes tk <= 2 * (k - i) ->
  v_len (t_value tk) <= k - i ->
  tokenized v i l r (plus_ticks t u).
Proof.
  intros v i k l tk r t u Hik Hk (R1 & R2 & R3) T1 T2 T3 T4 T5 T6.
  repeat split; ticks; try lia. destruct r as [l'|e]; [|exact I].
  destruct R3 as (n & -> & N1 & N2 & N3 & N4). exists (tk :: n).
  rewrite <- app_assoc. cbn [total]. repeat split; lia.
Qed.

Lemma tokenize_loop_spends : forall cmd v fuel i l,
  spends (tokenize_loop_c sg cfg cmd v fuel i l) (tokenized v i l)
    (fun t => reads t <= 3 * (v_len v - i) /\ pushes t <= v_len v - i).
Proof.
  intros cmd v. induction fuel as [|n IH]; intros i l; cbn [tokenize_loop_c].
  { cbn. lia. }
  destruct (i <? v_len v) eqn:E.
  2: { apply spends_done. bools. repeat split; ticks; try lia. exists []. rewrite app_nil_r.
       cbn. repeat split; lia. }
  bools. apply spends_bind. eapply spends_weaken; [apply scan_spends, test_has| |].
  2: { intros t (H1 & H2). lia. }
  intros j t (J1 & J2 & J3 & J4 & _). destruct (v_len v <=? j) eqn:E1.
  { apply spends_done. pose proof (one_le (j <? v_len v)). bools.
    assert (j <? v_len v = false) as Hj by (apply Nat.ltb_ge; lia). rewrite Hj in J3.
    repeat split; ticks; try lia. exists []. rewrite app_nil_r. cbn. repeat split; lia. }
  assert (j <? v_len v = true) as E1' by (bools; apply Nat.ltb_lt; lia). rewrite E1' in J3.
  bools. apply spends_bind, spends_read; [|ticks; lia].
  intros c. apply spends_bind, spends_test; [apply test_type|]. intros ct m _.
  (* a token that ends at a closing character *)
  assert (forall p (Hp : forall c, test (p c)) ty f, ty = TString \/ ty = TGroupString ->
    spends (k <~ scan_c p cmd v (v_len v) (S j) ;;
            if v_len v <=? k then
              q <~ view_at_c cmd v j ;; cdone (Error (f q))
            else
              len <~ free (size_sub k (j + 1)) ;;
              sub <~ free (substr v (j + 1) len) ;;
              tokens' <~ push_c l (Token ty sub) ;;
              tokenize_loop_c sg cfg cmd v n (S k) tokens')
      (fun r u => tokenized v i l r (plus_ticks t (plus_ticks (Ticks 1 0 0) (plus_ticks (Ticks 0 m 0) u))))
      (fun u => reads (plus_ticks t (plus_ticks (Ticks 1 0 0) (plus_ticks (Ticks 0 m 0) u)))
                  <= 3 * (v_len v - i) /\
                pushes (plus_ticks t (plus_ticks (Ticks 1 0 0) (plus_ticks (Ticks 0 m 0) u)))
                  <= v_len v - i)) as Hclosed.
  { intros p Hp ty f Hty. apply spends_bind. eapply spends_weaken; [apply scan_spends, Hp| |].
    2: { intros u (H1 & H2). ticks. lia. }
    intros k u (K1 & K2 & K3 & K4 & _). destruct (v_len v <=? k) eqn:E2.
    - assert (k <? v_len v = false) as Hk by (bools; apply Nat.ltb_ge; lia).
      rewrite Hk in K3. bools.
      apply spends_bind, spends_read; [|ticks; lia]. intros q. apply spends_done.
      repeat split; ticks; lia.
    - assert (k <? v_len v = true) as Hk by (bools; apply Nat.ltb_lt; lia).
      rewrite Hk in K3. bools.
      apply spends_bind, spends_free; [|ticks; lia]. intros len Hlen.
      apply size_sub_done in Hlen. destruct Hlen as [_ Hlen].
      apply spends_bind, spends_free; [|ticks; lia]. intros sub Hsub.
      apply substr_done in Hsub. destruct Hsub as [Hsub _].
      apply spends_bind, spends_push. eapply spends_weaken; [apply IH| |].
      + intros r w Hr.
        assert (tokenized v i l r (plus_ticks
          (Ticks (reads t + 1 + reads u) (compares t + m + compares u) 1) w)) as HH.
        { eapply tokenized_push; [| |exact Hr|..]; ticks; try lia.
          - destruct Hty as [-> | ->]; unfold value_reads, split_reads; cbn [t_type t_value]; [lia|].
            destruct (Nat.eqb_spec (v_len sub) 0); lia.
          - destruct Hty as [-> | ->]; unfold value_pushes; cbn [t_type t_value]; lia.
          - cbn [t_value]. lia. }
        destruct HH as (A1 & A2 & A3). repeat split; ticks; try lia.
        destruct r as [l'|e]; [|exact I]. destruct A3 as (n' & -> & B1 & B2 & B3 & B4).
        exists n'. repeat split; try assumption; ticks; lia.
      + intros w (W1 & W2). ticks. lia. }
  destruct ct.
  - apply Hclosed; [apply test_lacks|auto].
  - apply Hclosed; [apply test_lacks|auto].
  - apply spends_done. repeat split; ticks; lia.
  - apply spends_bind. eapply spends_weaken; [apply scan_word_spends| |].
    2: { intros u (H1 & H2). ticks. lia. }
    intros [k ty] u (K1 & K2 & K3 & K4 & K5 & K6). cbn [fst snd] in *.
    pose proof (one_le (k <? v_len v)) as Ho. 
    assert (one (k <? v_len v) = 0 -> v_len v <= k) as Hz.
    { destruct (k <? v_len v) eqn:Ek; cbn; [discriminate|]. bools. lia. }
    assert (one (k <? v_len v) = 1 -> k < v_len v) as Hz'.
    { destruct (k <? v_len v) eqn:Ek; cbn; [|discriminate]. bools. lia. }
    set (z := one (k <? v_len v)) in *. clearbody z.
    apply spends_bind, spends_free; [|ticks; lia]. intros len Hlen.
    apply size_sub_done in Hlen. destruct Hlen as [_ Hlen].
    apply spends_bind, spends_free; [|ticks; lia]. intros sub Hsub.
    apply substr_done in Hsub. destruct Hsub as [Hsub _].
    apply spends_bind, spends_push. eapply spends_weaken; [apply IH| |].
    + intros r w Hr.
      assert (tokenized v i l r (plus_ticks
        (Ticks (reads t + 1 + reads u) (compares t + m + compares u) 1) w)) as HH.
      { eapply tokenized_push; [| |exact Hr|..]; ticks; try lia.
        - unfold value_reads, split_reads. cbn [t_type t_value]. destruct ty; try lia.
          destruct K5 as [K5|K5]; [discriminate|]. destruct (Nat.eqb_spec (v_len sub) 0); lia.
        - unfold value_pushes. cbn [t_type t_value]. destruct ty; lia.
        - cbn [t_value]. lia. }
      destruct HH as (A1 & A2 & A3). repeat split; ticks; try lia.
      destruct r as [l'|e]; [|exact I]. destruct A3 as (n' & -> & B1 & B2 & B3 & B4).
      exists n'. repeat split; try assumption; ticks; lia.
    + intros w (W1 & W2). ticks. lia.
  - apply spends_bind, spends_free; [|ticks; lia]. intros sub Hsub.
    apply substr_done in Hsub. destruct Hsub as [Hsub _].
    apply spends_bind, spends_push. eapply spends_weaken; [apply IH| |].
    + intros r w Hr.
      assert (tokenized v i l r (plus_ticks
        (Ticks (reads t + 1) (compares t + m) 1) w)) as HH.
      { eapply tokenized_push; [| |exact Hr|..]; ticks; try lia.
        - unfold value_reads. cbn [t_type]. lia.
        - unfold value_pushes. cbn [t_type]. lia.
        - cbn [t_value]. lia. }
      destruct HH as (A1 & A2 & A3). repeat split; ticks; try lia.
      destruct r as [l'|e]; [|exact I]. destruct A3 as (n' & -> & B1 & B2 & B3 & B4).
      exists n'. repeat split; try assumption; ticks; lia.
    + intros w (W1 & W2). ticks. lia.
Qed.

Lemma createValue_spends : forall cmd t,
  spends (createValue_c sg cfg cmd t)
    (fun _ u => reads u <= value_reads t /\ S (pushes u) <= value_pushes t)
    (fun u => reads u <= value_reads t /\ S (pushes u) <= value_pushes t).
Proof.
  intros cmd t. unfold createValue_c, value_reads, value_pushes.
  destruct (t_type t); try (apply spends_push; cbn; lia).
  eapply spends_weaken; [apply split_loop_spends| |].
  - intros r u. rewrite Nat.sub_0_r. lia.
  - intros u. rewrite Nat.sub_0_r. lia.
Qed.

(** The cost still to be paid for the pending tokens. *)
Definition pending (f : token -> nat) (tokens : list token) (st : pstate) : nat :=
  match primary st with
  | None => 0
  | Some p =>
      match nth_error tokens (match secondary st with Some s => s | None => p end) with
      | Some t => f t
      | None => 0
      end
  end.

Lemma token_at_nth : forall tokens p t, token_at tokens p = Done t -> nth_error tokens p = Some t.
Proof.
  unfold token_at. intros tokens p t. destruct (nth_error tokens p); [|discriminate].
  intros H. injection H as <-. reflexivity.
Qed.

Lemma addCurrent_spends : forall cmd tokens st,
  (primary st = None -> secondary st = None) ->
  spends (addCurrentTokens_c sg cfg cmd tokens st)
    (fun st' u => primary st' = None /\ secondary st' = None /\
       reads u <= pending value_reads tokens st /\ pushes u <= pending value_pushes tokens st)
    (fun u => reads u <= pending value_reads tokens st /\ pushes u <= pending value_pushes tokens st).
Proof.
  intros cmd tokens st Hs. unfold addCurrentTokens_c, pending.
  destruct (primary st) as [p|] eqn:Ep.
  2: { apply spends_done. cbn. auto. }
  apply spends_bind, spends_free; [|cbn; lia]. intros pt Hpt. apply token_at_nth in Hpt.
  destruct (secondary st) as [s|].
  - apply spends_bind, spends_free; [|cbn; lia]. intros sec Hsec. apply token_at_nth in Hsec.
    rewrite Hsec. apply spends_bind. eapply spends_weaken; [apply createValue_spends| |].
    + intros v u (U1 & U2). apply spends_bind, spends_push, spends_done. ticks.
      cbn [primary secondary]. repeat split; lia.
    + intros u (U1 & U2). ticks. lia.
  - rewrite Hpt. apply spends_bind. eapply spends_weaken; [apply createValue_spends| |].
    + intros v u (U1 & U2). apply spends_bind, spends_push, spends_done. ticks.
      cbn [primary secondary]. repeat split; lia.
    + intros u (U1 & U2). ticks. lia.
Qed.

Lemma arg_step_spends : forall cmd tokens i t st,
  secondary st = None -> nth_error tokens i = Some t ->
  let within u := reads u <= pending value_reads tokens st + value_reads t /\
                  pushes u <= pending value_pushes tokens st + value_pushes t in
  spends (arg_step_c sg cfg cmd tokens i t st)
    (fun r u => within u /\
       match r with
       | Error _ => True
       | Value st' => secondary st' = None /\
           reads u + pending value_reads tokens st' <=
             pending value_reads tokens st + value_reads t /\
           pushes u + pending value_pushes tokens st' <=
             pending value_pushes tokens st + value_pushes t
       end)
    within.
Proof.
  intros cmd tokens i t st Hs Hi within. subst within. unfold arg_step_c.
  assert (forall ty, ty <> TAssignment ->
    spends (if nextSecondary st then
          match primary st with
          | None => cdone (Error (lit "Internal error"))
          | Some _ =>
              st <~ addCurrentTokens_c sg cfg cmd tokens
                      (PState (primary st) (Some i) (nextSecondary st) (p_args st) (p_named st)) ;;
              cdone (Value (PState (primary st) (secondary st) false (p_args st) (p_named st)))
          end
        else
          st <~ match primary st with
                | Some _ => addCurrentTokens_c sg cfg cmd tokens st
                | None => cdone st
                end ;;
          cdone (Value (PState (Some i) (secondary st) false (p_args st) (p_named st))))
    (fun r u => (reads u <= pending value_reads tokens st + value_reads t /\
                  pushes u <= pending value_pushes tokens st + value_pushes t) /\
       match r with
       | Error _ => True
       | Value st' => secondary st' = None /\
           reads u + pending value_reads tokens st' <=
             pending value_reads tokens st + value_reads t /\
           pushes u + pending value_pushes tokens st' <=
             pending value_pushes tokens st + value_pushes t
       end)
    (fun u => reads u <= pending value_reads tokens st + value_reads t /\
                  pushes u <= pending value_pushes tokens st + value_pushes t)) as Hstr.
  { intros ty _. destruct (nextSecondary st).
    - destruct (primary st) as [p|] eqn:Ep.
      + apply spends_bind. eapply spends_weaken; [apply addCurrent_spends; discriminate| |].
        * intros st' u (A1 & A2 & A3 & A4). apply spends_done.
          unfold pending in A3, A4. cbn [primary secondary] in A3, A4. rewrite Hi in A3, A4.
          unfold pending at 3 5. cbn [primary secondary]. rewrite A1, A2. ticks.
          repeat split; lia.
        * intros u (A3 & A4). unfold pending in A3, A4. cbn [primary secondary] in A3, A4.
          rewrite Hi in A3, A4. lia.
      + apply spends_done. ticks. repeat split; lia.
    - apply spends_bind.
      assert (spends (match primary st with
                | Some _ => addCurrentTokens_c sg cfg cmd tokens st
                | None => cdone st
                end)
         (fun st' u => primary st' = None /\ secondary st' = None /\
            reads u <= pending value_reads tokens st /\ pushes u <= pending value_pushes tokens st)
         (fun u => reads u <= pending value_reads tokens st /\
            pushes u <= pending value_pushes tokens st)) as Ha.
      { destruct (primary st) eqn:Ep; [apply addCurrent_spends; congruence|].
        apply spends_done. unfold pending. rewrite Ep. cbn. auto. }
      eapply spends_weaken; [exact Ha| |].
      + intros st' u (A1 & A2 & A3 & A4). apply spends_done.
        unfold pending at 3 5. cbn [primary secondary]. rewrite A2, Hi. ticks.
        repeat split; lia.
      + intros u (A3 & A4). lia. }
  destruct (t_type t).
  - apply (Hstr TString). discriminate.
  - apply (Hstr TString). discriminate.
  - clear Hstr. destruct (primary st) as [p|] eqn:Ep.
    + destruct (nextSecondary st); apply spends_done.
      * cbn. repeat split; lia.
      * unfold pending at 3 5. unfold pending. cbn [primary secondary]. rewrite Hs, Ep.
        cbn. repeat split; lia.
    + apply spends_done. cbn. repeat split; lia.
Qed.

Lemma arg_loop_spends : forall cmd tokens rest i st,
  secondary st = None -> skipn i tokens = rest ->
  let within u := reads u <= pending value_reads tokens st + total value_reads rest /\
                  pushes u <= pending value_pushes tokens st + total value_pushes rest in
  spends (arg_loop_c sg cfg cmd tokens rest i st)
    (fun r u => within u /\
       match r with
       | Error _ => True
       | Value st' => secondary st' = None /\
           reads u + pending value_reads tokens st' <=
             pending value_reads tokens st + total value_reads rest /\
           pushes u + pending value_pushes tokens st' <=
             pending value_pushes tokens st + total value_pushes rest
       end)
    within.
Proof.
  intros cmd tokens. induction rest as [|t rest IH]; intros i st Hs Hr within; subst within;
    cbn [arg_loop_c].
  { apply spends_done. cbn. repeat split; auto; lia. }
  assert (nth_error tokens i = Some t /\ skipn (S i) tokens = rest) as [Hi Hr'].
  { clear -Hr. revert i Hr. induction tokens as [|x l IHl]; intros [|i] H; cbn in H; try discriminate.
    - injection H as -> ->. auto.
    - apply IHl in H. exact H. }
  apply spends_bind. eapply spends_weaken; [apply arg_step_spends; eassumption| |].
  2: { intros u H. cbn beta in H. cbn [total].
       lia. }
  intros [st'|e] u (U1 & U2).
  all: cbn beta in U1.
  - destruct U2 as (V1 & V2 & V3). eapply spends_weaken; [apply (IH (S i) st' V1 Hr')| |].
    + intros r w (W1 & W2). cbn beta in W1. cbn [total].
      ticks. destruct r as [st''|e]; [destruct W2 as (X1 & X2 & X3)|]; repeat split; auto; lia.
    + intros w W1. cbn beta in W1. cbn [total].
      ticks. lia.
  - apply spends_done. cbn [total].
    ticks. repeat split; lia.
Qed.

Lemma c_str_length : forall s, length (c_str s) <= length s.
Proof. induction s as [|c s IH]; cbn; [lia|]. destruct (uchar c =? 0)%N; cbn; lia. Qed.

Lemma view_bytes_length : forall cmd v, length (view_bytes cmd v) <= v_len v.
Proof. intros. unfold view_bytes. rewrite firstn_length. lia. Qed.

Lemma parse_tokens_spends : forall cmd tokens,
  let within u := reads u <= Nat.max (2 * total (fun t => v_len (t_value t)) tokens)
                                     (total value_reads tokens) /\
                  pushes u <= total value_pushes tokens in
  spends (parse_tokens_c sg cfg cmd tokens) (fun _ => within) within.
Proof.
  intros cmd [|t rest] within; subst within; unfold parse_tokens_c.
  { apply spends_done. cbn. lia. }
  assert (reads (Ticks (printf_reads (view_bytes cmd (t_value t))) 0 0) <=
    Nat.max (2 * total (fun t => v_len (t_value t)) (t :: rest)) (total value_reads (t :: rest)))
    as Hm.
  { cbn [reads total]. unfold printf_reads. pose proof (view_bytes_length cmd (t_value t)). lia. }
  destruct (t_type t).
  2, 3: unfold spends; cbn [snd fst]; split; [exact Hm|cbn [pushes]; lia].
  cbn [total]. apply spends_bind.
  eapply spends_weaken; [apply arg_loop_spends; reflexivity| |].
  2: { intros u H. cbn beta in H. unfold pending in H. cbn [primary] in H. lia. }
  intros [st|e] u (U1 & U2).
  - unfold pending at 2 4 in U2. unfold pending in U1. cbn [primary] in U1, U2.
    destruct U2 as (V1 & V2 & V3). destruct (nextSecondary st).
    + apply spends_done. ticks. lia.
    + apply spends_bind. eapply spends_weaken; [apply addCurrent_spends; auto| |].
      * intros st' w (_ & _ & W1 & W2). apply spends_done. ticks. lia.
      * intros w (W1 & W2). ticks. lia.
  - unfold pending in U1. cbn [primary] in U1. apply spends_done. ticks. lia.
Qed.

Lemma parse_spends : forall cmd,
  spends (parse_c sg cfg cmd)
    (fun r u => reads u <= 7 * length cmd /\ pushes u <= 3 * length cmd /\
       match r with Value _ => length cmd <= reads u | Error _ => True end)
    (fun u => reads u <= 7 * length cmd /\ pushes u <= 3 * length cmd).
Proof.
  intros cmd. unfold parse_c. apply spends_bind.
  eapply spends_weaken; [apply tokenize_loop_spends| |].
  2: { intros t. cbn [whole v_len]. rewrite Nat.sub_0_r. lia. }
  intros [l|e] t; unfold tokenized; cbn [whole v_len]; rewrite Nat.sub_0_r; intros (T1 & T2 & T3).
  2: { apply spends_done. ticks. repeat split; lia. }
  destruct T3 as (n & -> & N1 & N2 & N3 & N4). cbn [app].
  eapply spends_weaken; [apply parse_tokens_spends| |].
  - intros r u (U1 & U2). ticks. repeat split; try lia. destruct r; lia.
  - intros u (U1 & U2). ticks. lia.
Qed.

(** * Comparisons *)

(** The most comparisons one character takes. *)
Definition classes : nat :=
  1 + length (m_spaceCharacters cfg) + length (m_groupParentheses cfg) +
  length (m_quotes cfg) + length (m_groupSeparators cfg).

(** At most [classes] comparisons per character read, [k] characters having been
    read before. *)
Definition cheap {A} (k : nat) (x : counted A) : Prop :=
  compares (fst x) <= classes * (reads (fst x) + k).

Lemma cheap_bind : forall A B k (x : counted A) (f : A -> counted B),
  cheap k x -> (forall a, snd x = Done a -> cheap 0 (f a)) -> cheap k (cbind x f).
Proof.
  intros A B k [t [a|e]] f Hx Hf; unfold cheap, cbind in *; cbn [fst snd] in *; [|exact Hx].
  specialize (Hf a eq_refl). cbn [plus_ticks reads compares]. lia.
Qed.

Lemma cheap_read : forall B cmd v i (f : byte -> counted B),
  (forall c, cheap 1 (f c)) -> cheap 0 (cbind (view_at_c cmd v i) f).
Proof.
  intros B cmd v i f H. unfold cheap, cbind, view_at_c. cbn [fst snd].
  destruct (view_at cmd v i) as [c|e]; cbn [plus_ticks fst snd reads compares]; [|lia].
  specialize (H c). unfold cheap in H. lia.
Qed.

Lemma cheap_done : forall A k (a : A), cheap k (cdone a).
Proof. intros. unfold cheap. cbn. lia. Qed.

Lemma cheap_free : forall A k (o : outcome A), cheap k (free o).
Proof. intros. unfold cheap. cbn. lia. Qed.

Lemma cheap_push : forall A k (l : list A) a, cheap k (push_c l a).
Proof. intros. unfold cheap. cbn. lia. Qed.

Lemma cheap_more : forall A k (x : counted A), cheap 0 x -> cheap k x.
Proof. intros A k x H. unfold cheap in *. lia. Qed.

Lemma find_compares_le : forall l c, find_compares sg l c <= length l.
Proof. induction l as [|e l IH]; intros c; cbn; [lia|]. specialize (IH c). destruct (_ =? _)%Z; lia. Qed.

(** A test with at most [n] comparisons. *)
Definition atmost {A} (n : nat) (x : counted A) : Prop := compares (fst x) <= n.

Lemma atmost_bind : forall A B n m (x : counted A) (f : A -> counted B),
  atmost n x -> (forall a, atmost m (f a)) -> atmost (n + m) (cbind x f).
Proof.
  intros A B n m [t [a|e]] f Hx Hf; unfold atmost, cbind in *; cbn in *; [|lia].
  specialize (Hf a). lia.
Qed.

Lemma atmost_done : forall A (a : A) n, atmost n (cdone a).
Proof. intros. unfold atmost. cbn. lia. Qed.

Lemma atmost_found : forall l c, atmost (length l) (found_c sg l c).
Proof. intros. unfold atmost. cbn. apply find_compares_le. Qed.

Lemma atmost_weaken : forall A n m (x : counted A), atmost n x -> n <= m -> atmost m x.
Proof. unfold atmost. intros. lia. Qed.

Lemma atmost_separator : forall c, atmost classes (isGroupSeparator_c sg cfg c).
Proof.
  intros c. eapply atmost_weaken.
  - apply atmost_bind with (m := length (m_groupSeparators cfg)); [apply atmost_found|].
    intros [|]; [apply atmost_done|apply atmost_found].
  - unfold classes. lia.
Qed.

Lemma atmost_quote : forall c, atmost classes (isQuote_c sg cfg c).
Proof. intros c. eapply atmost_weaken; [apply atmost_found|]. unfold classes. lia. Qed.

Lemma atmost_type : forall c, atmost classes (getCharType_c sg cfg c).
Proof.
  intros c. apply atmost_weaken with
    (n := 1 + (length (m_spaceCharacters cfg) + (length (m_groupParentheses cfg) +
            (length (m_quotes cfg) + 0)))); [|unfold classes; lia].
  apply atmost_bind; [unfold atmost; cbn; lia|]. intros [|]; [apply atmost_done|].
  apply atmost_bind; [apply atmost_found|]. intros [|]; [apply atmost_done|].
  apply atmost_bind; [apply atmost_found|]. intros [|]; [apply atmost_done|].
  apply atmost_bind; [apply atmost_found|]. intros [|]; apply atmost_done.
Qed.

Lemma atmost_has : forall t c, atmost classes (hasType_c sg cfg t c).
Proof.
  intros t c. apply atmost_weaken with (n := classes + 0); [|lia].
  apply atmost_bind; [apply atmost_type|]. intros. apply atmost_done.
Qed.

Lemma atmost_lacks : forall t c, atmost classes (lacksType_c sg cfg t c).
Proof.
  intros t c. apply atmost_weaken with (n := classes + 0); [|lia].
  apply atmost_bind; [apply atmost_type|]. intros. apply atmost_done.
Qed.

Lemma cheap_atmost : forall A (x : counted A), atmost classes x -> cheap 1 x.
Proof. intros A x H. unfold cheap, atmost in *. lia. Qed.

Lemma scan_cheap : forall p cmd v, (forall c, atmost classes (p c)) ->
  forall fuel i, cheap 0 (scan_c p cmd v fuel i).
Proof.
  intros p cmd v H. induction fuel as [|n IH]; intros i; cbn [scan_c];
    destruct (i <? v_len v); try apply cheap_free.
  apply cheap_read. intros c. apply cheap_bind; [apply cheap_atmost, H|].
  intros [|] _; [apply IH|apply cheap_done].
Qed.

Lemma scan_item_cheap : forall cmd v fuel i q, cheap 0 (scan_item_c sg cfg cmd v fuel i q).
Proof.
  intros cmd v. induction fuel as [|n IH]; intros i q; cbn [scan_item_c];
    destruct (i <? v_len v); try apply cheap_free.
  apply cheap_read. intros c. apply cheap_bind.
  - destruct q; [apply cheap_done|]. apply cheap_bind; [apply cheap_atmost, atmost_separator|].
    intros. apply cheap_done.
  - intros [|] _; [|apply cheap_done]. apply cheap_read. intros c'.
    apply cheap_bind; [apply cheap_atmost, atmost_quote|]. intros b _. apply IH.
Qed.

Lemma splitGroup_cheap : forall cmd v fuel i l, cheap 0 (splitGroup_loop_c sg cfg cmd v fuel i l).
Proof.
  intros cmd v. induction fuel as [|n IH]; intros i l; cbn [splitGroup_loop_c].
  - apply cheap_free.
  - destruct (i <? v_len v); [|apply cheap_done].
    apply cheap_bind; [apply scan_cheap, atmost_separator|]. intros j _.
    destruct (v_len v <=? j); [apply cheap_done|].
    apply cheap_bind; [apply scan_item_cheap|]. intros k _.
    apply cheap_read. intros cb. apply cheap_bind; [apply cheap_atmost, atmost_quote|]. intros qb _.
    apply cheap_bind.
    { destruct qb; [|apply cheap_done]. apply cheap_read. intros ce. apply cheap_atmost, atmost_quote. }
    intros quoted _. destruct (if quoted then (S j, k - 1) else (j, k)) as [b e].
    apply cheap_bind; [apply cheap_free|]. intros len _.
    apply cheap_bind; [apply cheap_free|]. intros sub _.
    apply cheap_bind; [apply cheap_push|]. intros r _. apply IH.
Qed.

Lemma createValue_cheap : forall cmd t, cheap 0 (createValue_c sg cfg cmd t).
Proof.
  intros cmd t. unfold createValue_c. destruct (t_type t); try apply cheap_push.
  apply splitGroup_cheap.
Qed.

Lemma scan_word_cheap : forall cmd v fuel i ty, cheap 0 (scan_word_c sg cfg cmd v fuel i ty).
Proof.
  intros cmd v. induction fuel as [|n IH]; intros i ty; cbn [scan_word_c];
    destruct (i <? v_len v); try apply cheap_free.
  apply cheap_read. intros c. apply cheap_bind; [apply cheap_atmost, atmost_has|].
  intros [|] _; [|apply cheap_done]. apply cheap_read. intros c'.
  apply cheap_bind; [apply cheap_atmost, atmost_separator|]. intros b _. apply IH.
Qed.

Lemma tokenize_cheap : forall cmd v fuel i l, cheap 0 (tokenize_loop_c sg cfg cmd v fuel i l).
Proof.
  intros cmd v. induction fuel as [|n IH]; intros i l; cbn [tokenize_loop_c].
  - apply cheap_free.
  - destruct (i <? v_len v); [|apply cheap_done].
    apply cheap_bind; [apply scan_cheap, atmost_has|]. intros j _.
    destruct (v_len v <=? j); [apply cheap_done|].
    apply cheap_read. intros c. apply cheap_bind; [apply cheap_atmost, atmost_type|]. intros [] _.
    + apply cheap_bind; [apply scan_cheap, atmost_lacks|]. intros k _. destruct (v_len v <=? k).
      * apply cheap_read. intros q. apply cheap_done.
      * apply cheap_bind; [apply cheap_free|]. intros len _.
        apply cheap_bind; [apply cheap_free|]. intros sub _.
        apply cheap_bind; [apply cheap_push|]. intros r _. apply IH.
    + apply cheap_bind; [apply scan_cheap, atmost_lacks|]. intros k _. destruct (v_len v <=? k).
      * apply cheap_read. intros q. apply cheap_done.
      * apply cheap_bind; [apply cheap_free|]. intros len _.
        apply cheap_bind; [apply cheap_free|]. intros sub _.
        apply cheap_bind; [apply cheap_push|]. intros r _. apply IH.
    + apply cheap_done.
    + apply cheap_bind; [apply scan_word_cheap|]. intros [k ty] _.
      apply cheap_bind; [apply cheap_free|]. intros len _.
      apply cheap_bind; [apply cheap_free|]. intros sub _.
      apply cheap_bind; [apply cheap_push|]. intros r _. apply IH.
    + apply cheap_bind; [apply cheap_free|]. intros sub _.
      apply cheap_bind; [apply cheap_push|]. intros r _. apply IH.
Qed.

Lemma addCurrent_cheap : forall cmd tokens st, cheap 0 (addCurrentTokens_c sg cfg cmd tokens st).
Proof.
  intros cmd tokens st. unfold addCurrentTokens_c. destruct (primary st); [|apply cheap_done].
  apply cheap_bind; [apply cheap_free|]. intros pt _. destruct (secondary st).
  - apply cheap_bind; [apply cheap_free|]. intros sec _.
    apply cheap_bind; [apply createValue_cheap|]. intros w _.
    apply cheap_bind; [apply cheap_push|]. intros r _. apply cheap_done.
  - apply cheap_bind; [apply createValue_cheap|]. intros w _.
    apply cheap_bind; [apply cheap_push|]. intros r _. apply cheap_done.
Qed.

Lemma arg_loop_cheap : forall cmd tokens rest i st,
  cheap 0 (arg_loop_c sg cfg cmd tokens rest i st).
Proof.
  intros cmd tokens. induction rest as [|t rest IH]; intros i st; cbn [arg_loop_c];
    [apply cheap_done|].
  apply cheap_bind.
  - unfold arg_step_c. destruct (t_type t), (nextSecondary st), (primary st); try apply cheap_done;
      apply cheap_bind; try apply addCurrent_cheap; try apply cheap_done; intros; apply cheap_done.
  - intros [st'|e] _; [apply IH|apply cheap_done].
Qed.

Lemma parse_cheap : forall cmd, cheap 0 (parse_c sg cfg cmd).
Proof.
  intros cmd. unfold parse_c. apply cheap_bind; [apply tokenize_cheap|].
  intros [l|e] _; [|apply cheap_done]. unfold parse_tokens_c.
  destruct l as [|t rest]; [apply cheap_done|].
  destruct (t_type t); try (unfold cheap; cbn [fst compares]; lia).
  apply cheap_bind; [apply arg_loop_cheap|]. intros [st|e] _; [|apply cheap_done].
  destruct (nextSecondary st); [apply cheap_done|].
  apply cheap_bind; [apply addCurrent_cheap|]. intros st' _. apply cheap_done.
Qed.
End Bounds.
