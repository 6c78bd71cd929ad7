(** Proofs about the work of executions. *)
From Coq Require Import Ascii String NArith ZArith Bool PeanoNat Lia List.
Import ListNotations.
From Verif Require Import Util Base Lexer LexerCost LexerCostProofs StringConv StringConvSpec Serializer UMap UMapSpec
  UMapCost UMapCostProofs Exec ExecSpec ExecProofs ExecCost ExecCostSpec.
Local Notation length := List.length.
Import ExecCost.

Lemma own_eq : forall a b, parsed a = parsed b -> lookup a = lookup b -> arities a = arities b ->
  conversions a = conversions b -> calls a = calls b -> prints a = prints b ->
  reports a = reports b -> listed a = listed b -> a = b.
Proof. intros [] []. cbn. intros. congruence. Qed.

Lemma plus_work_0 : forall w, plus_work w no_work = w.
Proof. intros []. unfold plus_work, no_work. cbn. f_equal; lia. Qed.
Lemma plus_0_work : forall w, plus_work no_work w = w.
Proof. intros []. reflexivity. Qed.
Lemma plus_nothing : forall w, plus_own w nothing = w.
Proof. intros []. unfold plus_own, nothing. cbn. rewrite plus_work_0. f_equal; lia. Qed.
Lemma nothing_plus : forall w, plus_own nothing w = w.
Proof. intros []. unfold plus_own, nothing. cbn. now rewrite plus_0_work. Qed.

(** * Erasure *)

Lemma snd_mbind : forall A B (x : metered A) (k : A -> metered B),
  snd (mbind x k) = (a <- snd x ;; snd (k a)).
Proof. intros A B [[w n] [a|f]] k; cbn; [destruct (k a) as [[w' n'] o]|]; reflexivity. Qed.

Lemma obind_ext : forall A B (o : outcome A) (k k' : A -> outcome B),
  (forall a, k a = k' a) -> (a <- o ;; k a) = (a <- o ;; k' a).
Proof. intros A B [a|f] k k' H; cbn; auto. Qed.

Section Same.
Variables W F : Type.
Variable code : F -> functor W F.
Variable sg catching : bool.

Lemma find_same : forall (m : umap bytes (command F)) k,
  snd (find_w bytes_eqb (hash_view sg) m k) = find bytes_eqb (hash_view sg) m k.
Proof. intros. apply UMapCostProofs.find_same. Qed.

Definition plain (nm : nested_m W F) : nested_call W F := fun s cmd => snd (nm s cmd).

Lemma run_same : forall nm R sid (p : prog W F R) s c,
  snd (run_m sg nm sid s c p) = run_prog sg (plain nm) sid s c p.
Proof.
  intros nm R sid p.
  induction p as [r|x|t k IH|t k IH|e k IH|k IH|k IH|i nv k IH|k IH|w k IH|k IH|nme fs k IH
                 |nme k IH|k IH|l k IH|cmd k IH]; intros s c; cbn [run_m run_prog]; auto.
  - destruct (is_live s sid); auto.
  - rewrite snd_mbind. apply obind_ext. auto.
  - rewrite snd_mbind. apply obind_ext. auto.
  - rewrite snd_mbind. apply obind_ext. intros [s' r]. apply IH.
Qed.

Lemma convert_same : forall ps i args, snd (convert_m ps i args) = convert ps i args.
Proof.
  induction ps as [|T r IH]; intros i args; cbn [convert_m convert]; [reflexivity|].
  rewrite snd_mbind. apply obind_ext. intros v. rewrite snd_mbind. cbn [spend snd bind].
  rewrite snd_mbind, IH. reflexivity.
Qed.

Lemma report_failed_same : forall ps es c,
  snd (report_failed_m ps es c) = Done (report_failed ps es c).
Proof.
  induction ps as [|T r IH]; intros es c; cbn [report_failed_m report_failed]; [reflexivity|].
  destruct (fst es); [apply IH|]. rewrite snd_mbind. apply IH.
Qed.

Lemma invoke_same : forall nm sid (f : functor W F) s c es,
  snd (invoke_m sg nm sid f s c es) = invoke sg (plain nm) sid f s c es.
Proof.
  intros. unfold invoke_m, invoke. destruct (any_failed (f_params f) es).
  - rewrite snd_mbind, report_failed_same. reflexivity.
  - rewrite snd_mbind. apply obind_ext. intros vs. rewrite snd_mbind. cbn [spend snd bind].
    rewrite snd_mbind, run_same. apply obind_ext. intros [[s' c'] [v|x]]; [|reflexivity].
    rewrite snd_mbind. unfold rtext_m. rewrite snd_mbind. reflexivity.
Qed.

Lemma trampoline_same : forall nm cl s c,
  snd (invokeTrampoline_m code sg nm cl s c) = invokeTrampoline code sg (plain nm) cl s c.
Proof.
  intros. unfold invokeTrampoline_m, invokeTrampoline. rewrite snd_mbind, convert_same.
  apply obind_ext. intros. apply invoke_same.
Qed.

Lemma dispatch_same : forall nm fs s c,
  snd (dispatch_m code sg nm fs s c) = dispatch code sg (plain nm) fs s c.
Proof.
  intros nm fs s c. induction fs as [|f r IH]; cbn [dispatch_m dispatch]; [reflexivity|].
  rewrite snd_mbind. cbn [spend snd bind].
  destruct (arity (code (snd f)) =? length (i_args (cc_input c))); [|exact IH].
  rewrite snd_mbind, trampoline_same. reflexivity.
Qed.

Lemma expected_loop_same : forall fs i n acc,
  snd (expected_loop_m code fs i n acc) = Done (expected_loop code fs i n acc).
Proof.
  induction fs as [|f r IH]; intros i n acc; cbn [expected_loop_m expected_loop]; [reflexivity|].
  rewrite snd_mbind. apply IH.
Qed.

Lemma ctx_same : forall nm s c,
  snd (execute_ctx_m code sg catching nm s c) = execute_ctx code sg catching (plain nm) s c.
Proof.
  intros. unfold execute_ctx_m, execute_ctx. destruct (i_name (cc_input c)) as [|ch r] eqn:E.
  - reflexivity.
  - rewrite snd_mbind. cbn [snd]. rewrite find_same. unfold get.
    apply obind_ext. intros [cmd|]; [|reflexivity].
    rewrite snd_mbind, dispatch_same. apply obind_ext. intros [[[s' c'] [[]|x]]|].
    + reflexivity.
    + destruct catching; [|reflexivity]. destruct x; reflexivity.
    + unfold wrongArity_m. rewrite snd_mbind, expected_loop_same. reflexivity.
Qed.

Lemma input_same : forall nm s inp,
  snd (execute_input_m code sg catching nm s inp) = execute_input code sg catching (plain nm) s inp.
Proof.
  intros. unfold execute_input_m, execute_input. rewrite snd_mbind, ctx_same.
  apply obind_ext. intros [[s' c'] [u|x]]; reflexivity.
Qed.

Lemma text_same : forall nm s cmd,
  snd (execute_text_m code sg catching nm s cmd) = execute_text code sg catching (plain nm) s cmd.
Proof.
  intros. unfold execute_text_m, execute_text. destruct (s_lexer s); [|reflexivity].
  rewrite snd_mbind. cbn [spend snd bind]. rewrite snd_mbind. cbn [unmetered snd].
  apply obind_ext. intros [inp|e]; [apply input_same|reflexivity].
Qed.

(** The nested executions are those of the model without counters. *)
Lemma run_ext : forall (n1 n2 : nested_call W F) R sid (p : prog W F R),
  (forall s cmd, n1 s cmd = n2 s cmd) -> forall s c,
  run_prog sg n1 sid s c p = run_prog sg n2 sid s c p.
Proof.
  intros n1 n2 R sid p H.
  induction p as [r|x|t k IH|t k IH|e k IH|k IH|k IH|i nv k IH|k IH|w k IH|k IH|nme fs k IH
                 |nme k IH|k IH|l k IH|cmd k IH]; intros s c; cbn [run_prog]; auto.
  - destruct (is_live s sid); auto.
  - apply obind_ext. auto.
  - apply obind_ext. auto.
  - rewrite H. apply obind_ext. intros [s' r]. apply IH.
Qed.

Lemma text_ext : forall (n1 n2 : nested_call W F),
  (forall s cmd, n1 s cmd = n2 s cmd) ->
  (forall s inp, execute_input code sg catching n1 s inp = execute_input code sg catching n2 s inp) /\
  (forall s cmd, execute_text code sg catching n1 s cmd = execute_text code sg catching n2 s cmd).
Proof.
  intros n1 n2 H.
  assert (D : forall fs s c, dispatch code sg n1 fs s c = dispatch code sg n2 fs s c).
  { intros fs s c. induction fs as [|f r IH]; cbn [dispatch]; [reflexivity|].
    destruct (_ =? _); [|exact IH]. unfold invokeTrampoline.
    destruct (convert _ _ _) as [es|]; [|reflexivity]. cbn [bind]. unfold invoke.
    destruct (any_failed _ es); [reflexivity|]. destruct (take_values _ es) as [vs|]; [|reflexivity].
    cbn [bind]. now rewrite (run_ext n1 n2 _ _ _ H). }
  assert (I : forall s inp, execute_input code sg catching n1 s inp =
                            execute_input code sg catching n2 s inp).
  { intros. unfold execute_input, execute_ctx. cbn [cc_input].
    destruct (i_name inp); [reflexivity|]. destruct (get _ _ _) as [[cmd|]|]; try reflexivity.
    cbn [bind]. rewrite D. reflexivity. }
  split; [exact I|]. intros. unfold execute_text. destruct (s_lexer s); [|reflexivity].
  apply obind_ext. intros [inp|e]; auto.
Qed.

Lemma nested_same : forall d s cmd,
  plain (nested_exec_m code sg catching d) s cmd = nested_exec code sg catching d s cmd.
Proof.
  induction d as [|d IH]; intros s cmd; [reflexivity|].
  unfold plain. cbn [nested_exec_m nested_exec].
  replace (snd (entered (execute_text_m code sg catching (nested_exec_m code sg catching d) s cmd)))
    with (snd (execute_text_m code sg catching (nested_exec_m code sg catching d) s cmd))
    by (destruct (execute_text_m _ _ _ _ _ _) as [[w n] o]; reflexivity).
  rewrite text_same. apply (text_ext _ _ IH).
Qed.

Lemma exec_same : forall d,
  (forall s inp, snd (exec_input_m code sg catching d s inp) = exec_input code sg catching d s inp) /\
  (forall s cmd, snd (exec_text_m code sg catching d s cmd) = exec_text code sg catching d s cmd).
Proof.
  intros d. destruct (text_ext _ _ (nested_same d)) as [A B]. split; intros.
  - unfold exec_input_m. rewrite input_same. apply A.
  - unfold exec_text_m. rewrite text_same. apply B.
Qed.
End Same.

(** * The work of one execution *)

Definition ow {A} (x : metered A) : own := fst (fst x).

Lemma ow_mbind : forall A B (x : metered A) (k : A -> metered B),
  ow (mbind x k) = match snd x with Done a => plus_own (ow x) (ow (k a)) | Fault _ => ow x end.
Proof. intros A B [[w n] [a|f]] k; cbn; [destruct (k a) as [[w' n'] o]|]; reflexivity. Qed.

Lemma ow_mbind_done : forall A B (x : metered A) (k : A -> metered B) a,
  snd x = Done a -> ow (mbind x k) = plus_own (ow x) (ow (k a)).
Proof. intros. rewrite ow_mbind, H. reflexivity. Qed.

Section Cost.
Variables W F : Type.
Variable code : F -> functor W F.
Variable sg catching : bool.
Local Notation state := (Exec.state W F).

Lemma run_ow : forall nm R sid (p : prog W F R) s c, ow (run_m sg nm sid s c p) = nothing.
Proof.
  intros nm R sid p.
  induction p as [r|x|t k IH|t k IH|e k IH|k IH|k IH|i nv k IH|k IH|w k IH|k IH|nme fs k IH
                 |nme k IH|k IH|l k IH|cmd k IH]; intros s c; cbn [run_m]; auto.
  - destruct (is_live s sid); auto.
  - rewrite ow_mbind. cbn [unmetered snd]. destruct (add sg s nme fs); [|reflexivity].
    rewrite IH. reflexivity.
  - rewrite ow_mbind. cbn [unmetered snd]. destruct (remove sg s nme); [|reflexivity].
    rewrite IH. reflexivity.
  - rewrite ow_mbind. cbn [snd]. destruct (snd (nm s cmd)) as [[s' r]|]; [|reflexivity].
    rewrite IH. reflexivity.
Qed.

Lemma convert_ow : forall ps i args, i + length ps <= length args ->
  ow (convert_m ps i args) = Own 0 no_work 0 (length ps) 0 0 0 0.
Proof.
  induction ps as [|T r IH]; intros i args H; cbn [convert_m]; [reflexivity|]. cbn [length] in H.
  destruct (at_ args i) as [v|] eqn:E.
  2: { exfalso. unfold at_ in E. destruct (nth_error args i) eqn:N; [discriminate|].
       apply nth_error_None in N. lia. }
  rewrite ow_mbind. cbn [unmetered snd]. rewrite ow_mbind. cbn [spend snd].
  rewrite ow_mbind, IH by lia. destruct (snd (convert_m r (S i) args));
    apply own_eq; cbn; rewrite ?Nat.add_0_r; auto.
Qed.

Lemma report_failed_ow : forall ps es c,
  ow (report_failed_m ps es c) = Own 0 no_work 0 0 0 0 (length (errs_of ps es)) 0.
Proof.
  induction ps as [|T r IH]; intros es c; cbn [report_failed_m errs_of]; [reflexivity|].
  destruct (fst es); [apply IH|]. rewrite ow_mbind. cbn [spend snd]. rewrite IH. reflexivity.
Qed.

Lemma rtext_ow : forall r v, ow (rtext_m r v) = Own 0 no_work 0 0 0 (printed r) 0 0.
Proof.
  intros r v. unfold rtext_m. rewrite ow_mbind. cbn [spend snd]. destruct r; reflexivity.
Qed.

Lemma invoke_bad_ow : forall nm sid (f : functor W F) s c es,
  any_failed (f_params f) es = true ->
  ow (invoke_m sg nm sid f s c es) = Own 0 no_work 0 0 0 0 (length (errs_of (f_params f) es)) 0.
Proof.
  intros. unfold invoke_m. rewrite H.
  rewrite (ow_mbind_done _ _ _ _ (report_failed (f_params f) es c)) by apply report_failed_same.
  rewrite report_failed_ow. apply plus_nothing.
Qed.

Lemma invoke_good_ow : forall nm sid (f : functor W F) s c es vs s' c' fin,
  any_failed (f_params f) es = false -> take_values (f_params f) es = Done vs ->
  run_prog sg (plain W F nm) sid s c (f_body f vs) = Done (s', c', fin) ->
  ow (invoke_m sg nm sid f s c es) =
  Own 0 no_work 0 0 1 (match fin with inl _ => printed (f_result f) | inr _ => 0 end) 0 0.
Proof.
  intros nm sid f s c es vs s' c' fin A T R. unfold invoke_m. rewrite A.
  rewrite (ow_mbind_done _ _ _ _ vs) by exact T. cbn [unmetered].
  rewrite (ow_mbind_done _ _ _ _ tt) by reflexivity.
  rewrite (ow_mbind_done _ _ _ _ (s', c', fin)) by now rewrite run_same.
  rewrite run_ow. destruct fin as [v|x]; [|reflexivity].
  rewrite ow_mbind, rtext_ow. destruct (snd (rtext_m _ v));
    apply own_eq; cbn; rewrite ?Nat.add_0_r; auto.
Qed.

Lemma dispatch_none_ow : forall nm fs s c,
  none_accepts code fs (length (i_args (cc_input c))) ->
  ow (dispatch_m code sg nm fs s c) = Own 0 no_work (length fs) 0 0 0 0 0.
Proof.
  intros nm fs s c. induction fs as [|f r IH]; intros N; cbn [dispatch_m]; [reflexivity|].
  rewrite ow_mbind. cbn [spend snd].
  replace (arity (code (snd f)) =? length (i_args (cc_input c))) with false.
  2: { symmetry. apply Nat.eqb_neq. rewrite arity_params. apply N. now left. }
  rewrite IH by (intros g I; apply N; now right). reflexivity.
Qed.

Lemma dispatch_chosen_ow : forall nm before f after s c,
  none_accepts code before (length (i_args (cc_input c))) ->
  length (f_params (code (snd f))) = length (i_args (cc_input c)) ->
  ow (dispatch_m code sg nm (before ++ f :: after) s c) =
  plus_own (Own 0 no_work (S (length before)) 0 0 0 0 0) (ow (invokeTrampoline_m code sg nm f s c)).
Proof.
  intros nm before f after s c. induction before as [|g r IH]; intros N L; cbn [dispatch_m app].
  - rewrite ow_mbind. cbn [spend snd].
    rewrite arity_params, L, Nat.eqb_refl. rewrite ow_mbind.
    destruct (snd (invokeTrampoline_m code sg nm f s c)); cbn [mdone unmetered ow fst];
      rewrite ?plus_nothing; reflexivity.
  - rewrite ow_mbind. cbn [spend snd].
    replace (arity (code (snd g)) =? length (i_args (cc_input c))) with false.
    2: { symmetry. apply Nat.eqb_neq. rewrite arity_params. apply N. now left. }
    rewrite IH; [|intros h I; apply N; now right|exact L].
    destruct (ow (invokeTrampoline_m code sg nm f s c)). unfold plus_own. cbn. f_equal.
Qed.

Lemma expected_ow : forall fs i n acc,
  ow (expected_loop_m code fs i n acc) = Own 0 no_work 0 0 0 0 0 (length fs).
Proof.
  induction fs as [|f r IH]; intros i n acc; cbn [expected_loop_m]; [reflexivity|].
  rewrite ow_mbind. cbn [spend snd]. rewrite IH. reflexivity.
Qed.

Lemma chosen_split : forall fs n f, chosen code fs n f ->
  exists before after, fs = before ++ f :: after /\ none_accepts code before n /\
    length (f_params (code (snd f))) = n.
Proof. intros fs n f (b & a & E & L & N). exists b, a. auto. Qed.

Lemma find_get : forall (s : state) name l o,
  find_w bytes_eqb (hash_view sg) (s_commands s) name = (l, o) -> get sg s name = o.
Proof. intros s name l o H. unfold get. rewrite <- UMapCostProofs.find_same, H. reflexivity. Qed.

Lemma ow_input : forall nm s inp x,
  snd (execute_ctx_m code sg catching nm s (CallCtx inp empty_result)) = Done x ->
  ow (execute_input_m code sg catching nm s inp) =
  ow (execute_ctx_m code sg catching nm s (CallCtx inp empty_result)).
Proof.
  intros nm s inp x H. unfold execute_input_m. rewrite (ow_mbind_done _ _ _ _ x) by exact H.
  destruct x as [[s' c'] [u|e]]; apply plus_nothing.
Qed.

Lemma input_costs : forall nm s inp s' r,
  sound_nested code sg catching (plain W F nm) ->
  snd (execute_input_m code sg catching nm s inp) = Done (s', r) ->
  costs code sg catching s inp (ow (execute_input_m code sg catching nm s inp)).
Proof.
  intros nm s inp s' r SN H.
  assert (X : exists x, snd (execute_ctx_m code sg catching nm s (CallCtx inp empty_result)) = Done x).
  { unfold execute_input_m in H. rewrite snd_mbind in H.
    destruct (snd (execute_ctx_m _ _ _ _ _ _)) as [x|]; [eauto|discriminate]. }
  destruct X as (x & X). rewrite (ow_input _ _ _ _ X). clear H.
  unfold execute_ctx_m in *. cbn [cc_input] in *.
  destruct (i_name inp) as [|ch nr] eqn:Q.
  { replace (ow _) with (Own 0 no_work 0 0 0 0 1 0) by reflexivity. now constructor. }
  assert (E : i_name inp <> []) by now rewrite Q.
  rewrite <- Q in *. rewrite snd_mbind in X. rewrite ow_mbind. cbn [snd] in *.
  destruct (find_w bytes_eqb (hash_view sg) (s_commands s) (i_name inp)) as [l o] eqn:G.
  cbn [snd] in *. destruct o as [[cmd|]|]; [| |discriminate].
  2: { replace (plus_own _ _) with (Own 0 l 0 0 0 0 1 0)
         by (apply own_eq; cbn; rewrite ?plus_work_0; auto).
       eapply costs_unknown; eauto. }
  cbn [bind] in X. rewrite snd_mbind in X.
  destruct (snd (dispatch_m code sg nm (c_functors cmd) s (CallCtx inp empty_result)))
    as [o|] eqn:D; [|discriminate].
  rewrite (ow_mbind_done _ _ _ _ o) by exact D.
  destruct (chosen_or_none code (c_functors cmd) (length (i_args inp))) as [(f & C)|C].
  2: { rewrite dispatch_same in D. rewrite dispatch_none in D by exact C. injection D as <-.
       rewrite dispatch_none_ow by exact C.
       unfold wrongArity_m.
       rewrite (ow_mbind_done _ _ _ _ (expected_loop code (c_functors cmd) 0 (length (c_functors cmd)) []))
         by apply expected_loop_same.
       rewrite expected_ow. 
       replace (plus_own _ _) with
         (Own 0 l (length (c_functors cmd)) 0 0 0 1 (length (c_functors cmd))).
       2: { apply own_eq; cbn; rewrite ?plus_work_0; auto; lia. }
       eapply costs_arity; eauto. }
  pose proof C as C'. apply chosen_split in C'. destruct C' as (before & after & S & N & L).
  rewrite dispatch_same, (dispatch_chosen code sg _ _ s (CallCtx inp empty_result) _ C) in D.
  rewrite S, (dispatch_chosen_ow nm before f after s (CallCtx inp empty_result) N L).
  unfold invokeTrampoline_m. cbn [cc_input].
  unfold invokeTrampoline in D. cbn [cc_input] in D.
  pose proof (convert_from_all (f_params (code (snd f))) 0 [] (i_args inp) eq_refl (eq_sym L)) as CV.
  cbn [app] in CV. rewrite CV in D. cbn [bind] in D.
  rewrite (ow_mbind_done _ _ _ _ (from_all (f_params (code (snd f))) (i_args inp)))
    by now rewrite convert_same.
  rewrite convert_ow by lia. cbn [unmetered].
  set (es := from_all (f_params (code (snd f))) (i_args inp)) in *.
  assert (CE : conversion_errors (f_params (code (snd f))) (i_args inp)
                 (errs_of (f_params (code (snd f))) es)) by now apply from_all_errors.
  destruct (any_failed (f_params (code (snd f))) es) eqn:A.
  - rewrite invoke_bad_ow by exact A.
    assert (NE : errs_of (f_params (code (snd f))) es <> []).
    { rewrite any_failed_errs in A. destruct (errs_of _ es); [discriminate|easy]. }
    unfold invoke in D. rewrite A in D. injection D as <-.
    replace (plus_own _ _) with
      (Own 0 l (Datatypes.S (length before)) (length (i_args inp)) 0 0
           (length (errs_of (f_params (code (snd f))) es)) 0).
    2: { apply own_eq; cbn; rewrite ?plus_work_0; auto; try lia. }
    eapply costs_conversion; eauto.
  - pose proof A as A'. rewrite any_failed_errs in A.
    destruct (errs_of _ es) eqn:B; [|discriminate].
    destruct (from_all_values _ _ (eq_sym L) B) as (vs & T & V).
    fold es in T. unfold invoke in D. rewrite A', T in D. cbn [bind] in D.
    destruct (run_prog sg (plain W F nm) (fst f) s (CallCtx inp empty_result) (f_body (code (snd f)) vs))
      as [[[s1 c1] fin]|] eqn:P; [|discriminate].
    rewrite (invoke_good_ow _ _ _ _ _ _ vs s1 c1 fin A' T P).
    assert (P' := P).
    replace (CallCtx inp empty_result) with (ctx_of (i_name inp) (i_args inp) [] (i_named inp)) in P'
      by (destruct inp; reflexivity).
    eapply run_sound in P'; [|exact SN]. destruct P' as (evs & nmd & -> & RR).
    destruct fin as [v|ex]; cbn [bind] in D.
    + destruct (rtext (f_result (code (snd f))) v) as [t|]; [|discriminate].
      injection D as <-.
      replace (plus_own _ _) with
        (Own 0 l (Datatypes.S (length before)) (length (i_args inp)) 1
             (match @inl (rcarrier (f_result (code (snd f)))) exn v with inl _ => printed (f_result (code (snd f))) | inr _ => 0 end)
             (match @inl (rcarrier (f_result (code (snd f)))) exn v with inl _ => 0 | inr _ => if catching then 1 else 0 end) 0).
      2: { apply own_eq; cbn; rewrite ?plus_work_0; auto; try lia. }
      exact (costs_call code sg catching s inp l cmd before f after vs s1 evs nmd (inl v) E G S N V RR).
    + injection D as <-.
      replace (plus_own _ _) with
        (Own 0 l (Datatypes.S (length before)) (length (i_args inp)) 1
             (match @inr (rcarrier (f_result (code (snd f)))) exn ex with inl _ => printed (f_result (code (snd f))) | inr _ => 0 end)
             (match @inr (rcarrier (f_result (code (snd f)))) exn ex with inl _ => 0 | inr _ => if catching then 1 else 0 end) 0).
      2: { destruct catching, ex; apply own_eq; cbn; rewrite ?plus_work_0; auto; try lia. }
      exact (costs_call code sg catching s inp l cmd before f after vs s1 evs nmd (inr ex) E G S N V RR).
Qed.
End Cost.
