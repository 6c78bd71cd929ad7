(** Property C50: handlers that use the Bindings object that runs them. *)
From Coq Require Import Ascii String NArith ZArith Bool PeanoNat Lia List.
Import ListNotations.
From Verif Require Import Util Base StringConv StringConvSpec StringConvProofs
  SerializerSpec Serializer SerializerProofs Lexer LexerSpec LexerProofs LexerMeta
  UMap UMapSpec UMapProofs UMapMore UMapIter
  Exec ExecSpec ExecProofs ExecMore ExecKinds P_Exec.

(** * C50  Handlers may re-enter the bindings *)

Lemma default_clean sg cfg : clean_lexer (Some (parse_input sg cfg)).
Proof.
  intros lex t [= <-] E.
  assert (I : ill_command (cfg_classes sg cfg) t) by (apply parse_input_fault_iff; eauto).
  rewrite (parse_input_ill sg cfg t I) in E. discriminate.
Qed.

Lemma add_lexer {W F} sg (s : state W F) n fs s' : add sg s n fs = Done s' -> s_lexer s' = s_lexer s.
Proof. unfold add. destruct (insertOrAssign _ _ _ _ _); simpl; [|discriminate]. now intros [= <-]. Qed.

Lemma register_lexer sg t : forall s s', register_all sg s t = Done s' -> s_lexer s' = s_lexer s.
Proof.
  induction t as [|[n fs] t IH]; intros s s' H; simpl in H; [now injection H as <-|].
  destruct (add sg s n fs) as [s1|] eqn:E; simpl in H; [|discriminate].
  apply IH in H. apply add_lexer in E. congruence.
Qed.

Lemma ex_state_lexer : s_lexer ex_state = Some (parse_input true default_cfg).
Proof.
  unfold ex_state. destruct (register_all _ _ _) as [s|] eqn:E; [|reflexivity].
  apply register_lexer in E. exact E.
Qed.

(** Full statement, in its safety part: whatever handlers do with the registry, no
    execution uses freed memory. *)
Definition C50_full_statement : Prop :=
  forall W F (code : F -> functor W F) sg catching d s cmd,
  clean_lexer (s_lexer s) -> exec_text code sg catching d s cmd <> Fault UseAfterFree.

(** False: a handler that removes its own command and then uses what it captured. *)
Theorem C50_own_removal_refuted : forall d,
  exec_text ex_code true true d ex_state (lit "gone") = Fault UseAfterFree.
Proof.
  assert (forall A (o : outcome A),
            match o with Fault UseAfterFree => true | _ => false end = true -> o = Fault UseAfterFree) as Is.
  { intros A [a|[]]; congruence. }
  intros d. apply Is. destruct d; vm_compute; reflexivity.
Qed.

Theorem C50_full_statement_fails : ~ C50_full_statement.
Proof.
  intros H. apply (H Z ex_fn ex_code true true 0 ex_state (lit "gone")).
  - rewrite ex_state_lexer. apply default_clean.
  - apply C50_own_removal_refuted.
Qed.

(** What holds: let [fixed] names be those that no handler adds, removes or clears, and let
    [ok name f] mark handlers that, registered under [name], use their captures only while
    they are sure to be registered: not after removing or overwriting [name], clearing, or,
    unless [name] is fixed, executing any command; and that register only such handlers.
    Then no execution uses freed memory, to any depth, and the same holds afterwards.
    Missing: handlers that use their captures after executing a command that could remove
    them but in fact does not. *)
Theorem C50_no_use_after_free_partial : forall W F (code : F -> functor W F) sg catching
  (ok : bytes -> F -> Prop) (fixed : bytes -> bool),
  (forall name f vs, ok name f -> careful ok fixed name true (f_body (code f) vs)) ->
  forall d s cmd, all_ok ok s ->
  exec_text code sg catching d s cmd <> Fault UseAfterFree /\
  forall s' r, exec_text code sg catching d s cmd = Done (s', r) -> all_ok ok s'.
Proof.
  intros W F code sg catching ok fixed H d s cmd A.
  destruct (careful_text code sg catching ok fixed H d s cmd A) as [U K].
  split; [exact U|]. intros s' r E. eapply K; eauto.
Qed.

Theorem C50_input_no_use_after_free_partial : forall W F (code : F -> functor W F) sg catching
  (ok : bytes -> F -> Prop) (fixed : bytes -> bool),
  (forall name f vs, ok name f -> careful ok fixed name true (f_body (code f) vs)) ->
  forall d s inp, all_ok ok s ->
  exec_input code sg catching d s inp <> Fault UseAfterFree /\
  forall s' r, exec_input code sg catching d s inp = Done (s', r) -> all_ok ok s'.
Proof.
  intros W F code sg catching ok fixed H d s inp A.
  destruct (careful_input code sg catching ok fixed H d s inp A) as [U K].
  split; [exact U|]. intros s' r E. eapply K; eauto.
Qed.

(** Handlers may execute commands and use their captures as they like if none changes the
    registry. *)
Theorem C50_unchanging_registry_safe : forall W F (code : F -> functor W F) sg catching,
  (forall f vs, only (fun k => match k with KRegistry => false | _ => true end)
                  (f_body (code f) vs)) ->
  forall d s cmd, clean_lexer (s_lexer s) ->
  exec_text code sg catching d s cmd <> Fault UseAfterFree.
Proof.
  intros W F code sg catching H d s cmd L.
  eapply (careful_text code sg catching (fun _ _ => True) (fun _ => true)); [|now split].
  intros n f vs _. specialize (H f vs). revert H.
  generalize (f_body (code f) vs) as p. intros p.
  induction p as [r|x|t p IH|t p IH|e p IH|p IH|p IH|i nv p IH|p IH|w p IH|p IH|nme fs p IH
                 |nme p IH|p IH|l p IH|cm p IH]; simpl; intros H;
    try (destruct H; discriminate); try (destruct H); auto.
Qed.

(** Adding or removing another command keeps a handler's storage. *)
Theorem C50_other_changes_keep_storage : forall W F sg (s s1 : state W F) name own sid,
  name <> own -> stored_as s own sid ->
  (exists fs, add sg s name fs = Done s1) \/ remove sg s name = Done s1 ->
  stored_as s1 own sid.
Proof.
  intros W F sg s s1 name own sid N S.
  assert (E : bytes_eqb name own = false) by (destruct (bytes_eqb_spec name own); congruence).
  intros [(fs & H)|H]; [eapply add_keeps|eapply remove_keeps]; eauto.
Qed.

(** A handler that is fixed may use its captures after running commands that remove
    others; one that replaces itself may not, and does not. *)
Inductive ex_re := RA | RB | RC.
Definition ex_re_code (f : ex_re) : functor Z ex_re :=
  match f with
  | RA => Functor false [] RVoid   (* "a": executes "b", then uses its captures *)
      (fun _ => DoExecute (lit "b") (fun _ => Touch (Ret (tt : rcarrier RVoid))))
  | RB => Functor false [] RVoid   (* "b": overwrites itself with [RC], removes "c" *)
      (fun _ => Touch (DoAdd (lit "b") [RC] (DoRemove (lit "c") (Ret (tt : rcarrier RVoid)))))
  | RC => Functor false [] RVoid (fun _ => Touch (Ret (tt : rcarrier RVoid)))
  end.
Example C50_ex_careful : forall name f vs,
  (f = RA -> name = lit "a") ->
  careful (fun n f => f = RA -> n = lit "a") (fun n => bytes_eqb n (lit "a")) name true
    (f_body (ex_re_code f) vs).
Proof.
  intros name [] vs H; simpl.
  - rewrite H by reflexivity. simpl. auto.
  - split; [reflexivity|]. split; [|auto]. intros f [<-|[]]; discriminate.
  - auto.
Qed.
Example C50_ex_run :
  match add true (fresh_bindings true 0%Z) (lit "a") [RA] with
  | Done s => match add true s (lit "b") [RB] with
      | Done s => match add true s (lit "c") [RC] with
          | Done s => match exec_text ex_re_code true true 3 s (lit "a") with
              | Done (s', inl r) => (length (nodes (s_commands s')), r_errors r)
              | _ => (0, [])
              end
          | _ => (0, []) end
      | _ => (0, []) end
  | _ => (0, []) end = (2, []).
Proof. vm_compute. reflexivity. Qed.

(** Executions are those of the specification: handler programs run step by step, nested
    executions see the state as changed so far and hand back their result and the state
    they left. *)
Theorem C50_executions_as_specified : forall W F (code : F -> functor W F) sg catching s cmd s' r,
  (exists d, exec_text code sg catching d s cmd = Done (s', r)) <->
  executes code sg catching s cmd s' r.
Proof.
  intros. split.
  - intros (d & H). eapply exec_text_sound; eauto.
  - apply exec_text_complete.
Qed.

(** The nesting bound does not matter once it suffices. *)
Theorem C50_bound_irrelevant : forall W F (code : F -> functor W F) sg catching d d' s cmd s' r,
  exec_text code sg catching d s cmd = Done (s', r) -> d <= d' ->
  exec_text code sg catching d' s cmd = Done (s', r).
Proof. intros. eapply exec_text_mono; eauto. Qed.

(** The handler that makes a nested call keeps its own output, errors and named arguments;
    it only receives the nested result and the changed state. *)
Theorem C50_nested_result_isolated : forall W F (code : F -> functor W F) sg catching R sid
  s evs nm cmd (k : result + exn -> prog W F R) s1 x,
  executes code sg catching s cmd s1 x -> forall s' evs' nm' fin,
  runs code sg catching R sid s evs nm (DoExecute cmd k) s' evs' nm' fin <->
  runs code sg catching R sid s1 evs nm (k x) s' evs' nm' fin.
Proof.
  intros W F code sg catching R sid s evs nm cmd k s1 x E s' evs' nm' fin. split.
  - intros H. apply run_step_iff in H. simpl in H.
    destruct H as (s2 & x2 & E2 & H). destruct (executes_det _ _ _ _ _ _ _ _ _ E E2) as [-> ->].
    exact H.
  - intros H. eapply runs_execute; eauto.
Qed.

(** A handler without a Context that only makes nested calls shows none of their output or
    errors: its result has no output, and no errors besides its own exception. *)
Example C50_ex_nested_output : forall d r s',
  exec_text ex_code true true d ex_state (lit "nest") = Done (s', r) ->
  r = inl (Result (ex_input "nest" []) [] (Some (lit "7")) []).
Proof.
  intros d r s' H.
  assert (G : shown (exec_text ex_code true true (d + 5) ex_state (lit "nest")) = Some (s_world s', r)).
  { rewrite (C50_bound_irrelevant _ _ _ _ _ _ (d + 5) _ _ _ _ H); [reflexivity|lia]. }
  assert (K : exists s5 r5, exec_text ex_code true true 5 ex_state (lit "nest") = Done (s5, r5) /\
                r5 = inl (Result (ex_input "nest" []) [] (Some (lit "7")) [])).
  { assert (Q : shown (exec_text ex_code true true 5 ex_state (lit "nest")) =
       Some (40%Z, inl (Result (ex_input "nest" []) [] (Some (lit "7")) []))).
    { vm_compute. reflexivity. }
    destruct (exec_text ex_code true true 5 ex_state (lit "nest")) as [[s5 r5]|]; [|discriminate].
    exists s5, r5. split; [reflexivity|]. now injection Q as _ ->. }
  destruct K as (s5 & r5 & E & ->).
  rewrite (C50_bound_irrelevant _ _ _ _ _ _ (d + 5) _ _ _ _ E) in G; [|lia].
  now injection G as _ <-.
Qed.

(** The registry after an execution is the result of the operations that handlers
    performed: a history of additions, removals and clears. *)
Section Registry.
Context {W F : Type}.
Variable code : F -> functor W F.
Variable sg catching : bool.
Local Notation rstep := (step bytes_eqb (hash_view sg)).

Lemma run_from_app (h h' : list (op bytes (command F))) : forall m,
  run_from rstep m (h ++ h') = bind (run_from rstep m h) (fun m1 => run_from rstep m1 h').
Proof.
  induction h as [|o h IH]; intros m; simpl; [reflexivity|].
  destruct (rstep m o); simpl; [apply IH|reflexivity].
Qed.

Definition follows (s s' : state W F) : Prop :=
  exists h, run_from rstep (s_commands s) h = Done (s_commands s').

Lemma follows_same (s s' : state W F) : s_commands s' = s_commands s -> follows s s'.
Proof. intros E. exists []. simpl. now rewrite E. Qed.

Lemma follows_trans s1 s2 s3 : follows s1 s2 -> follows s2 s3 -> follows s1 s3.
Proof.
  intros (h1 & E1) (h2 & E2). exists (h1 ++ h2). rewrite run_from_app, E1. exact E2.
Qed.

Lemma follows_add s name fs s1 : add sg s name fs = Done s1 -> follows s s1.
Proof.
  unfold add, follows. intros H.
  exists [Add name (Command name (combine (seq (s_next s) (length fs)) fs))]. simpl.
  destruct (insertOrAssign _ _ _ _ _); simpl in *; [|discriminate]. now injection H as <-.
Qed.

Lemma follows_remove s name s1 : remove sg s name = Done s1 -> follows s s1.
Proof.
  unfold remove, follows. intros H. exists [Remove name]. simpl.
  destruct (erase _ _ _ _); simpl in *; [|discriminate]. now injection H as <-.
Qed.

Lemma follows_clear s : follows s (clear_all s).
Proof. exists [Clear]. reflexivity. Qed.

Lemma all_follow :
  (forall R sid s evs nm p s' evs' nm' fin,
     runs code sg catching R sid s evs nm p s' evs' nm' fin -> follows s s') /\
  (forall s inp s' r, answers code sg catching s inp s' r -> follows s s') /\
  (forall s cmd s' r, executes code sg catching s cmd s' r -> follows s s').
Proof.
  apply (exec_mut W F code sg catching); intros; try (now apply follows_same); auto;
    try (eapply follows_trans; [|eassumption]);
    eauto using follows_add, follows_remove, follows_clear;
    now apply follows_same.
Qed.

Theorem C50_registry_is_history : forall s cmd s' r,
  executes code sg catching s cmd s' r ->
  exists h', forall h : list (op bytes (command F)), run bytes_eqb (hash_view sg) h = Done (s_commands s) ->
    run bytes_eqb (hash_view sg) (h ++ h') = Done (s_commands s').
Proof.
  intros s cmd s' r H. destruct (proj2 (proj2 all_follow) _ _ _ _ H) as (h' & E).
  exists h'. intros h Eh. unfold run in *. rewrite run_from_app, Eh. exact E.
Qed.

(** [s] holds the commands of the history [h]. *)
Definition holds (s : state W F) (h : list (op bytes (command F))) : Prop :=
  run bytes_eqb (hash_view sg) h = Done (s_commands s) /\
  harmless_history bytes_eqb (hash_view sg) h.

Lemma history_snoc (h : list (op bytes (command F))) o m m1 :
  run bytes_eqb (hash_view sg) h = Done m -> rstep m o = Done m1 ->
  run bytes_eqb (hash_view sg) (h ++ [o]) = Done m1.
Proof.
  unfold run. intros E H. rewrite run_from_app, E. simpl. rewrite H. reflexivity.
Qed.

Lemma holds_get s h : holds s h -> forall n, get sg s n = Done (ideal bytes_eqb h n).
Proof.
  intros [E H] n.
  destruct (harmless_faithful bytes_eqb (hash_view sg) bytes_eqb_spec h H) as (m & E' & Fa).
  rewrite E in E'. injection E' as <-. apply Fa.
Qed.

Lemma harmless_snoc_add (h : list (op bytes (command F))) n c :
  harmless_history bytes_eqb (hash_view sg) h ->
  harmless_history bytes_eqb (hash_view sg) (h ++ [Add n c] : list (op bytes (command F))).
Proof.
  unfold harmless_history. generalize (shape0 (K := bytes)).
  induction h as [|o h IH]; intros s0; simpl; [auto|]. intros [A B]. auto.
Qed.

Theorem C50_fresh_holds : forall w, holds (fresh_bindings sg w) [].
Proof. intros w. split; [reflexivity|exact I]. Qed.

(** After an addition inside a handler, lookups (hence nested executions) see the new
    command, and all others as before. *)
Theorem C50_addition_seen : forall s h name fs, holds s h ->
  exists s1 cmd, add sg s name fs = Done s1 /\ holds s1 (h ++ [Add name cmd]) /\
    map snd (c_functors cmd) = fs /\
    get sg s1 name = Done (Some cmd) /\
    forall other, other <> name -> get sg s1 other = get sg s other.
Proof.
  intros s h name fs H.
  set (cmd := Command name (combine (seq (s_next s) (length fs)) fs)).
  assert (Hh : harmless_history bytes_eqb (hash_view sg) (h ++ [Add name cmd]))
    by now apply harmless_snoc_add, H.
  destruct (harmless_faithful bytes_eqb (hash_view sg) bytes_eqb_spec _ Hh) as (m & E & Fa).
  unfold add. fold cmd.
  assert (Q : insertOrAssign bytes_eqb (hash_view sg) (s_commands s) name cmd = Done m).
  { unfold run in E. rewrite run_from_app in E. destruct H as [H _]. unfold run in H.
    rewrite H in E. simpl in E.
    destruct (insertOrAssign _ _ _ _ _); simpl in E; [|discriminate]. congruence. }
  rewrite Q. simpl. eexists _, cmd. split; [reflexivity|].
  assert (Hs : holds (State (s_lexer s) m (s_next s + length fs) (s_world s)) (h ++ [Add name cmd])).
  { split; [exact E|exact Hh]. }
  split; [exact Hs|]. split.
  { simpl. clear. generalize (s_next s). induction fs as [|f fs IH]; intros n; simpl; [reflexivity|].
    now rewrite IH. }
  split.
  - rewrite (holds_get _ _ Hs). unfold ideal. rewrite fold_left_app. simpl.
    now rewrite bytes_eqb_refl.
  - intros other N. rewrite (holds_get _ _ Hs), (holds_get _ _ H). unfold ideal.
    rewrite fold_left_app. simpl. destruct (bytes_eqb_spec other name); [easy|reflexivity].
Qed.

(** After a removal, the command is gone, and all others are as before, as long as the
    removal is harmless (see C20). *)
Theorem C50_removal_seen : forall s h name, holds s h ->
  harmless_history bytes_eqb (hash_view sg) (h ++ [Remove name]) ->
  exists s1, remove sg s name = Done s1 /\ holds s1 (h ++ [Remove name]) /\
    get sg s1 name = Done None /\
    forall other, other <> name -> get sg s1 other = get sg s other.
Proof.
  intros s h name H Hh.
  destruct (harmless_faithful bytes_eqb (hash_view sg) bytes_eqb_spec _ Hh) as (m & E & Fa).
  unfold remove.
  assert (Q : erase bytes_eqb (hash_view sg) (s_commands s) name = Done m).
  { unfold run in E. rewrite run_from_app in E. destruct H as [H _]. unfold run in H.
    rewrite H in E. simpl in E.
    destruct (erase _ _ _ _); simpl in E; [|discriminate]. congruence. }
  rewrite Q. simpl. eexists. split; [reflexivity|].
  assert (Hs : holds (set_commands s m) (h ++ [Remove name])) by (split; [exact E|exact Hh]).
  split; [exact Hs|]. split.
  - rewrite (holds_get _ _ Hs). unfold ideal. rewrite fold_left_app. simpl.
    now rewrite bytes_eqb_refl.
  - intros other N. rewrite (holds_get _ _ Hs), (holds_get _ _ H). unfold ideal.
    rewrite fold_left_app. simpl. destruct (bytes_eqb_spec other name); [easy|reflexivity].
Qed.

(** After clear (inside a handler or not) every name is unknown. *)
Theorem C50_clear_seen : forall s h, holds s h ->
  holds (clear_all s) (h ++ [Clear]) /\ forall name, get sg (clear_all s) name = Done None.
Proof.
  intros s h H.
  assert (Hs : holds (clear_all s) (h ++ [Clear])).
  { split; [eapply history_snoc; [apply H|reflexivity]|]. destruct H as [_ H]. revert H.
    unfold harmless_history. generalize (shape0 (K := bytes)).
    induction h as [|o h IH]; intros s0; simpl; [auto|]. intros [A B]. auto. }
  split; [exact Hs|]. intros name. rewrite (holds_get _ _ Hs). unfold ideal.
  rewrite fold_left_app. reflexivity.
Qed.

(** A nested execution of a text resolves the command in the registry as it is then. *)
Theorem C50_nested_resolves_now : forall s h cmd lex inp s' r,
  holds s h -> s_lexer s = Some lex -> lex cmd = Done (Value inp) -> i_name inp <> [] ->
  executes code sg catching s cmd s' r ->
  match ideal bytes_eqb h (i_name inp) with
  | None => s' = s /\ exists msg, unknown_message (i_name inp) msg /\ r = inl (failure inp [msg])
  | Some c =>
      (s' = s /\ exists e es, r = inl (failure inp (e :: es))) \/
      exists f vs evs nm fin, chosen code (c_functors c) (length (i_args inp)) f /\
        converts (f_params (code (snd f))) (i_args inp) vs /\
        runs code sg catching _ (fst f) s [] (i_named inp) (f_body (code (snd f)) vs) s' evs nm fin
  end.
Proof.
  intros s h cmd lex inp s' r H L P Ne X.
  assert (A : answers code sg catching s inp s' r).
  { destruct X as [s cmd lex0 e L0 P0|s cmd lex0 inp0 s' r L0 P0 A];
      rewrite L in L0; injection L0 as <-; rewrite P in P0; [discriminate|].
    now injection P0 as <-. }
  assert (G := holds_get s h H (i_name inp)).
  destruct (ideal bytes_eqb h (i_name inp)) as [c|].
  - destruct A; try congruence.
    + left. eauto.
    + left. split; [reflexivity|]. destruct es; [congruence|eauto].
    + right. rewrite G in H1. injection H1 as <-. eauto 12.
    + right. rewrite G in H1. injection H1 as <-. eauto 12.
    + right. rewrite G in H1. injection H1 as <-. eauto 12.
  - destruct A; try congruence. eauto.
Qed.
End Registry.

(** * Assumptions *)
Print Assumptions C50_own_removal_refuted.
Print Assumptions C50_full_statement_fails.
Print Assumptions C50_no_use_after_free_partial.
Print Assumptions C50_input_no_use_after_free_partial.
Print Assumptions C50_unchanging_registry_safe.
Print Assumptions C50_other_changes_keep_storage.
Print Assumptions C50_executions_as_specified.
Print Assumptions C50_bound_irrelevant.
Print Assumptions C50_nested_result_isolated.
Print Assumptions C50_registry_is_history.
Print Assumptions C50_fresh_holds.
Print Assumptions C50_addition_seen.
Print Assumptions C50_removal_seen.
Print Assumptions C50_clear_seen.
Print Assumptions C50_nested_resolves_now.
