(** Property C81: the work of executing a command.

    [exec_input_m] and [exec_text_m] are [exec_input] and [exec_text] with counters
    (ExecCost.v).  They return the work [w] of the execution itself, the list [n] of the work
    of the executions that handlers started in it, and the outcome. *)
From Coq Require Import Ascii String NArith ZArith Bool PeanoNat Lia List.
Import ListNotations.
From Verif Require Import Util Base StringConv StringConvSpec Serializer Lexer LexerCost
  LexerCostProofs UMap UMapSpec UMapProofs UMapIter UMapCost UMapCostProofs Exec ExecSpec ExecProofs
  ExecMore ExecKinds P_LexerCost P_UMap P_UMapCost ExecCost ExecCostSpec ExecCostProofs ExecCostBounds P_Exec.
Local Notation length := List.length.

(** * Counting does not change what an execution does *)

Theorem C81_same : forall W F (code : F -> functor W F) sg catching d,
  (forall s inp, snd (exec_input_m code sg catching d s inp) = exec_input code sg catching d s inp) /\
  (forall s cmd, snd (exec_text_m code sg catching d s cmd) = exec_text code sg catching d s cmd).
Proof. intros. apply exec_same. Qed.

(** * The work of an execution, exactly *)

(** The work of an execution that ends is that of one of the five ways it can go. *)
Theorem C81_cost : forall W F (code : F -> functor W F) sg catching d s inp w n s' r,
  exec_input_m code sg catching d s inp = (w, n, Done (s', r)) -> costs code sg catching s inp w.
Proof.
  intros W F code sg catching d s inp w n s' r H.
  pose proof (input_costs W F code sg catching (nested_exec_m code sg catching d) s inp s' r) as C.
  unfold exec_input_m in H. rewrite H in C. apply C; [|reflexivity].
  intros s0 cmd0 s1 r1 E. rewrite nested_same in E. eapply nested_sound. exact E.
Qed.

(** The specification determines the work. *)
Theorem C81_cost_determined : forall W F (code : F -> functor W F) sg catching s inp w w',
  costs code sg catching s inp w -> costs code sg catching s inp w' -> w = w'.
Proof.
  intros W F code sg catching s inp w w' A B.
  assert (U : forall fs b1 f1 a1 b2 f2 a2 m, fs = b1 ++ f1 :: a1 -> fs = b2 ++ f2 :: a2 ->
    none_accepts code b1 m -> none_accepts code b2 m ->
    length (f_params (code (snd f1))) = m -> length (f_params (code (snd f2))) = m ->
    b1 = b2 /\ f1 = f2).
  { intros fs b1 f1 a1 b2 f2 a2 m -> E. revert b2 E.
    induction b1 as [|x b1 IH]; intros [|y b2] E N1 N2 L1 L2; cbn in E; injection E as E1 E2.
    - auto.
    - exfalso. apply (N2 y); [now left|congruence].
    - exfalso. apply (N1 x); [now left|congruence].
    - subst y. destruct (IH b2 E2) as [-> ->]; auto; intros g I; [apply N1|apply N2]; now right. }
  assert (NA : forall fs b f a m, fs = b ++ f :: a -> none_accepts code fs m ->
    length (f_params (code (snd f))) = m -> False).
  { intros fs b f a m -> N L. apply (N f); [|exact L]. apply in_or_app. right. now left. }
  destruct A as [E|l E G|l cmd E G N|l cmd b f a es E G S N CE NE|l cmd b f a vs s1 ev nm fin E G S N V R];
    destruct B as [E'|l' E' G'|l' cmd' E' G' N'|l' cmd' b' f' a' es' E' G' S' N' CE' NE'
                  |l' cmd' b' f' a' vs' s1' ev' nm' fin' E' G' S' N' V' R'];
    try contradiction; try reflexivity;
    rewrite G in G'; try discriminate; injection G'; intros; subst; try reflexivity.
  - exfalso. eapply NA; [exact S'|exact N|]. symmetry. eapply conversion_errors_length, CE'.
  - exfalso. eapply NA; [exact S'|exact N|]. symmetry. eapply converts_length, V'.
  - exfalso. eapply NA; [exact S|exact N'|]. symmetry. eapply conversion_errors_length, CE.
  - destruct (U _ _ _ _ _ _ _ _ S S' N N') as [-> ->];
      [symmetry; eapply conversion_errors_length, CE|symmetry; eapply conversion_errors_length, CE'|].
    apply conversion_errors_det in CE, CE'. subst. reflexivity.
  - exfalso. destruct (U _ _ _ _ _ _ _ _ S S' N N') as [-> ->];
      [symmetry; eapply conversion_errors_length, CE|symmetry; eapply converts_length, V'|].
    apply conversion_errors_det in CE. apply converts_from_all in V'. destruct V' as [V' _].
    congruence.
  - exfalso. eapply NA; [exact S|exact N'|]. symmetry. eapply converts_length, V.
  - exfalso. destruct (U _ _ _ _ _ _ _ _ S S' N N') as [-> ->];
      [symmetry; eapply converts_length, V|symmetry; eapply conversion_errors_length, CE'|].
    apply conversion_errors_det in CE'. apply converts_from_all in V. destruct V as [V _].
    congruence.
  - destruct (U _ _ _ _ _ _ _ _ S S' N N') as [-> ->];
      [symmetry; eapply converts_length, V|symmetry; eapply converts_length, V'|].
    apply converts_from_all in V, V'. destruct V as [_ V], V' as [_ V'].
    rewrite V in V'. injection V' as ->.
    destruct (runs_det code sg catching _ _ _ _ _ _ _ _ _ _ _ _ _ _ R R') as (_ & _ & -> & _).
    reflexivity.
Qed.

(** Executing a text: the text is given to the lexer once, and then the result of the lexer
    is executed or an error reported. *)
Theorem C81_text : forall W F (code : F -> functor W F) sg catching d s lex cmd w n s' r,
  s_lexer s = Some lex ->
  exec_text_m code sg catching d s cmd = (w, n, Done (s', r)) ->
  (exists e, lex cmd = Done (Error e) /\ n = [] /\ w = Own (length cmd) no_work 0 0 0 0 1 0) \/
  (exists inp v, lex cmd = Done (Value inp) /\
     exec_input_m code sg catching d s inp = (v, n, Done (s', r)) /\ parsed v = 0 /\
     w = Own (length cmd) (lookup v) (arities v) (conversions v) (calls v) (prints v) (reports v)
             (listed v)).
Proof.
  intros W F code sg catching d s lex cmd w n s' r L H.
  unfold exec_text_m, execute_text_m in H. rewrite L in H.
  destruct (lex cmd) as [[inp|e]|] eqn:P; cbn in H.
  - unfold exec_input_m in *.
    destruct (execute_input_m code sg catching (nested_exec_m code sg catching d) s inp) as [[v n'] o] eqn:X.
    cbn in H.
    injection H as <- <- ->. right. exists inp, v. split; [reflexivity|]. split; [exact X|].
    assert (Z : parsed v = 0).
    { apply C81_cost in X. destruct X; reflexivity. }
    split; [exact Z|]. apply own_eq; cbn; rewrite ?Z, ?plus_0_work; auto.
  - injection H as <- <- <- <-. left. exists e. split; [reflexivity|]. split; [reflexivity|].
    apply own_eq; cbn; auto.
  - discriminate.
Qed.

(** * Linear time *)

Lemma found_overloads {W F} sg (s : state W F) name l cmd k :
  (forall x, In x (nodes (s_commands s)) -> length (c_functors (n_val x)) <= k) ->
  find_w bytes_eqb (hash_view sg) (s_commands s) name = (l, Done (Some cmd)) ->
  length (c_functors cmd) <= k.
Proof.
  intros K G. apply (find_get W F sg) in G. unfold get, find in G.
  destruct (findNodeIndex _ _ _ _) as [[i|]|]; try discriminate. cbn [bind] in G.
  destruct (at_ (nodes (s_commands s)) i) as [x|] eqn:E; [|discriminate]. injection G as <-.
  apply K. apply at_done in E. eapply nth_error_In, E.
Qed.

Lemma found_work {F} sg (m : umap bytes (command F)) name l o :
  find_w bytes_eqb (hash_view sg) m name = (l, Done o) -> hashes l = 1 /\ matches l <= size m.
Proof.
  intros G. pose proof (C72_lookup bytes (command F) bytes_eqb (hash_view sg) m name P_UMap.names_ok) as C.
  rewrite G in C. cbn [fst] in C. destruct C as (C1 & C2 & _); [|auto].
  rewrite <- UMapCostProofs.find_same, G. discriminate.
Qed.

(** Without the lexer and what handlers do: linear in the number of registered commands, of
    overloads and of arguments. *)
Theorem C81_steps : forall W F (code : F -> functor W F) sg catching d s inp k w n s' r,
  (forall x, In x (nodes (s_commands s)) -> length (c_functors (n_val x)) <= k) ->
  exec_input_m code sg catching d s inp = (w, n, Done (s', r)) ->
  steps w <= size (s_commands s) + 2 * k + 2 * length (i_args inp) + 4.
Proof.
  intros W F code sg catching d s inp k w n s' r K H. apply C81_cost in H. unfold steps.
  destruct H as [E|l E G|l cmd E G N|l cmd b f a es E G S N CE NE|l cmd b f a vs s1 ev nm fin E G S N V R].
  - cbn. lia.
  - apply found_work in G. cbn. lia.
  - pose proof (found_overloads _ _ _ _ _ _ K G). apply found_work in G. cbn. lia.
  - pose proof (found_overloads _ _ _ _ _ _ K G) as L. rewrite S, app_length in L. cbn in L.
    apply found_work in G. pose proof (conversion_errors_length _ _ _ CE) as CL.
    apply conversion_errors_det in CE. pose proof (errs_le (f_params (code (snd f))) (from_all _ (i_args inp))) as EL.
    rewrite <- CE in EL. cbn. lia.
  - pose proof (found_overloads _ _ _ _ _ _ K G) as L. rewrite S, app_length in L. cbn in L.
    apply found_work in G.
    assert (P : forall q, printed q <= 1) by (intros []; cbn; lia).
    specialize (P (f_result (code (snd f)))).
    cbn. destruct fin; [|destruct catching]; lia.
Qed.

(** With the default lexer: linear in the length of the text as well. *)
Theorem C81_linear : forall W F (code : F -> functor W F) sg catching d s cmd k w n s' r,
  s_lexer s = Some (parse_input sg default_cfg) ->
  (forall x, In x (nodes (s_commands s)) -> length (c_functors (n_val x)) <= k) ->
  exec_text_m code sg catching d s cmd = (w, n, Done (s', r)) ->
  let t := fst (parse_c sg default_cfg cmd) in
  reads t + compares t + pushes t + steps w
  <= 96 * length cmd + size (s_commands s) + 2 * k + 4.
Proof.
  intros W F code sg catching d s cmd k w n s' r L K H t.
  pose proof (C70_linear sg cmd) as T. fold t in T. cbn zeta in T.
  destruct (C81_text _ _ _ _ _ _ _ _ _ _ _ _ _ L H) as [(e & _ & _ & ->)|(inp & v & P & X & _ & ->)].
  - unfold steps. cbn. lia.
  - pose proof (C81_steps _ _ _ _ _ _ _ _ _ _ _ _ _ K X) as S.
    apply parse_input_count in P. unfold steps in *. cbn in *. lia.
Qed.

(** * The executions inside an execution *)

(** However it ends: each execution, also the nested ones, looks up one command, calls one
    handler and prints one result at most, and reports one error or one per argument. *)
Theorem C81_each : forall W F (code : F -> functor W F) sg catching d,
  (forall s inp w n o, exec_input_m code sg catching d s inp = (w, n, o) -> Forall sane (w :: n)) /\
  (forall s cmd w n o, exec_text_m code sg catching d s cmd = (w, n, o) -> Forall sane (w :: n)).
Proof.
  intros W F code sg catching d. destruct (exec_sane W F code sg catching d) as [A B].
  split; intros s x w n o H; [specialize (A s x)|specialize (B s x)];
    rewrite H in *; cbn in *; assumption.
Qed.

(** If no handler starts more than [b] executions, there are at most 1 + b + ... + b^d. *)
Theorem C81_executions : forall W F (code : F -> functor W F) sg catching b d,
  (forall f vs, starts_at_most b (f_body (code f) vs)) ->
  (forall s inp w n o, exec_input_m code sg catching d s inp = (w, n, o) ->
     length (w :: n) <= geometric b d) /\
  (forall s cmd w n o, exec_text_m code sg catching d s cmd = (w, n, o) ->
     length (w :: n) <= geometric b d).
Proof.
  intros W F code sg catching b d B. destruct (exec_count W F code sg catching b B d) as [P Q].
  split; intros s x w n o H; [specialize (P s x)|specialize (Q s x)]; rewrite H in *; cbn in *; lia.
Qed.

(** * The list of arities *)

(** The space reserved for the list of arities in an error message (src/Coil.cpp:301) is
    exactly its length if no arity has two digits, and too small otherwise. *)
Theorem C81_reserved : forall W F (code : F -> functor W F) fs,
  2 <= length fs ->
  (Forall (fun f => length (f_params (code (snd f))) < 10) fs ->
   length (expected_loop code fs 0 (length fs) []) = 3 * length fs) /\
  (Exists (fun f => 10 <= length (f_params (code (snd f)))) fs ->
   3 * length fs < length (expected_loop code fs 0 (length fs) [])).
Proof.
  intros W F code fs L. rewrite expected_loop_text.
  destruct (enum_length (map (fun f => length (f_params (code (snd f)))) fs)) as [A B];
    rewrite map_length in *; [exact L|].
  split; intros H; [apply A|apply B]; [apply Forall_map|apply Exists_map]; exact H.
Qed.

(** * Examples *)

Definition ex_work (cmd : string) : own * list own :=
  fst (exec_text_m ex_code true true 5 ex_state (lit cmd)).

(** Three overloads, of arities 1, 2, 1, in a registry of ten commands. *)
Example C81_ex_call :
  ex_work "sum 1 2" = (Own 7 (Work 1 1 0 0 0) 2 2 1 1 0 0, []) /\
  ex_work "sum 1" = (Own 5 (Work 1 1 0 0 0) 1 1 1 1 0 0, []) /\
  ex_work "hello x" = (Own 7 (Work 1 1 0 0 0) 1 1 1 0 0 0, []).
Proof. repeat split; vm_compute; reflexivity. Qed.

(** All arguments are converted although the first one cannot be. *)
Example C81_ex_errors :
  ex_work "sum x y" = (Own 7 (Work 1 1 0 0 0) 2 2 0 0 2 0, []) /\
  ex_work "sum x 1" = (Own 7 (Work 1 1 0 0 0) 2 2 0 0 1 0, []) /\
  ex_work "sum" = (Own 3 (Work 1 1 0 0 0) 3 0 0 0 1 3, []) /\
  ex_work "boom" = (Own 4 (Work 1 1 0 0 0) 1 0 1 0 1 0, []) /\
  ex_work "=" = (Own 1 no_work 0 0 0 0 1 0, []) /\
  ex_work "" = (Own 0 no_work 0 0 0 0 1 0, []).
Proof. repeat split; vm_compute; reflexivity. Qed.

(** The handler of "nest" executes "sum 1 2". *)
Example C81_ex_nested :
  ex_work "nest" = (Own 4 (Work 1 1 0 0 0) 1 0 1 1 0 0, [Own 7 (Work 1 1 0 0 0) 2 2 1 1 0 0]).
Proof. vm_compute. reflexivity. Qed.

(** Every handler of the application starts at most one execution. *)
Example C81_ex_starts : forall f vs, starts_at_most 1 (f_body (ex_code f) vs).
Proof. intros [] vs; cbn; auto. Qed.

(** The hypotheses of [C81_linear]. *)
Example C81_ex_overloads :
  s_lexer ex_state = Some (parse_input true default_cfg) /\
  (forall x, In x (nodes (s_commands ex_state)) -> length (c_functors (n_val x)) <= 3) /\
  size (s_commands ex_state) = 10.
Proof.
  split; [reflexivity|]. split; [|vm_compute; reflexivity].
  apply Forall_forall. vm_compute. repeat constructor.
Qed.
Example C81_ex_linear :
  let t := fst (parse_c true default_cfg (lit "sum 1 2")) in
  reads t + compares t + pushes t = 115 /\ steps (fst (ex_work "sum 1 2")) = 8 /\
  reads t + compares t + pushes t + steps (fst (ex_work "sum 1 2")) <=
  96 * length (lit "sum 1 2") + 10 + 2 * 3 + 4.
Proof. vm_compute. repeat split; lia. Qed.

(** The list of arities of "sum", and one with a function of eleven parameters. *)
Inductive wide_fn := Wide | Narrow.
Definition wide_code (f : wide_fn) : functor unit wide_fn :=
  Functor false (match f with Wide => repeat i32 11 | Narrow => [] end) RVoid
          (fun _ => Ret (tt : rcarrier RVoid)).
Example C81_ex_reserved :
  expected_loop ex_code [(0, XNeg); (1, XSum); (2, XNeg)] 0 3 [] = lit "1, 2 or 1" /\
  length (lit "1, 2 or 1") = 3 * 3 /\
  expected_loop wide_code [(0, Narrow); (1, Wide)] 0 2 [] = lit "0 or 11" /\
  3 * 2 < length (lit "0 or 11").
Proof. vm_compute. repeat split; lia. Qed.

(** * Assumptions *)
Print Assumptions C81_same.
Print Assumptions C81_cost.
Print Assumptions C81_cost_determined.
Print Assumptions C81_text.
Print Assumptions C81_steps.
Print Assumptions C81_linear.
Print Assumptions C81_each.
Print Assumptions C81_executions.
Print Assumptions C81_reserved.
