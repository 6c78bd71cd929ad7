(** Property C80: the memory of parsing and execution.

    [b_parse fails what sg cfg cmd h] parses with the ledger of memory blocks [h], where the
    n-th request for a block fails if [fails n]; [b_exec_text ... s cmd h] executes.  Both give
    the new ledger with what they return or throw.  Freeing a block that is not in use, and
    reading or writing in it, is a fault. *)
From Coq Require Import Ascii String NArith ZArith Bool PeanoNat Lia List Permutation.
Import ListNotations.
From Verif Require Import Util Base Lexer LexerSpec LexerProofs StringConv Serializer UMap
  Exec ExecSpec ExecThrow ExecThrowSpec P_Exec P_ExecThrow P_Lexer
  Blocks BlocksSpec BlocksProofs BlocksLexer BlocksExec BlocksRun.
Local Notation length := List.length.

(** * C80  No block leaks, none is freed twice *)

(** ** Parsing *)

(** The result is the one of C02-C16, and the blocks in use are those of before and those
    that the result owns.  If parse throws, it is std::bad_alloc, a request has failed, and the
    blocks in use are those of before.  Faults are those of C01. *)
Theorem C80_parse : forall fails what sg cfg cmd h, ledger h ->
  match b_parse fails what sg cfg cmd h with
  | Done (h', inl r) =>
      ledger h' /\ gained h h' (own_parsed r) /\ parse sg cfg cmd = Done (plain_parsed r) /\
      none_failed fails h h'
  | Done (h', inr x) =>
      ledger h' /\ gained h h' [] /\ x = StdException what /\ some_failed fails h h'
  | Fault f => parse sg cfg cmd = Fault f
  end.
Proof.
  intros fails what sg cfg cmd h Hh.
  pose proof (parse_sim fails what sg cfg cmd h Hh (has_nil h)) as H.
  destruct (b_parse fails what sg cfg cmd h) as [[h1 [r|e]]|f]; [| |exact H].
  - destruct H as ((y & E & <- & _) & K & B & N & L). rewrite gained_bal. auto.
  - destruct H as (-> & K & B & S & L). rewrite gained_bal. auto.
Qed.

(** A command string that is not ill (C01) is parsed without faults, whatever fails. *)
Theorem C80_parse_safe : forall fails what sg cfg cmd h, ledger h ->
  ~ ill_command (cfg_classes sg cfg) cmd -> exists x, b_parse fails what sg cfg cmd h = Done x.
Proof.
  intros fails what sg cfg cmd h Hh Hi. pose proof (C80_parse fails what sg cfg cmd h Hh) as H.
  destruct (b_parse fails what sg cfg cmd h) as [x|f]; [eauto|].
  exfalso. apply Hi. apply C01_parse_faults_iff. eauto.
Qed.

(** Once the result is destroyed the blocks in use are those of before. *)
Theorem C80_parse_freed : forall fails what sg cfg cmd h h' r, ledger h ->
  b_parse fails what sg cfg cmd h = Done (h', inl r) ->
  exists h'', parsed_destroy r h' = Done h'' /\ ledger h'' /\ Permutation (h_live h'') (h_live h).
Proof.
  intros fails what sg cfg cmd h h' r Hh E. pose proof (C80_parse fails what sg cfg cmd h Hh) as H.
  rewrite E in H. destruct H as (K & B & _). apply gained_bal in B.
  assert (D : dok (parsed_destroy r) (own_parsed r)).
  { destruct r as [i|e]; [apply dok_input|apply dok_str]. }
  destruct (D h' K) as (h2 & E2 & K2 & B2 & _).
  { intros a. specialize (B a). cbn [occ] in B. lia. }
  exists h2. split; [exact E2|]. split; [exact K2|]. apply eqv_perm. intros a.
  specialize (B a). specialize (B2 a). cbn [occ] in *. lia.
Qed.

(** With enough memory parse is the parse of C02-C16. *)
Theorem C80_parse_enough_memory : forall fails what sg cfg cmd h, ledger h ->
  (forall n, fails n = false) ->
  match b_parse fails what sg cfg cmd h with
  | Done (_, inl r) => parse sg cfg cmd = Done (plain_parsed r)
  | Done (_, inr _) => False
  | Fault f => parse sg cfg cmd = Fault f
  end.
Proof.
  intros fails what sg cfg cmd h Hh Hn. pose proof (C80_parse fails what sg cfg cmd h Hh) as H.
  destruct (b_parse fails what sg cfg cmd h) as [[h1 [r|e]]|f]; [apply H| |exact H].
  destruct H as (_ & _ & _ & n & _ & E). rewrite Hn in E. discriminate.
Qed.

(** ** Execution *)

Section Execution.
Context {W F : Type}.
Variable fails : nat -> bool.
Variable what : bytes.
Variable code : F -> functor W F.
Variables sg catching : bool.
Variable lexes : lexer -> bytes -> M (binput bytes + Blocks.str).
Variable ok : lexer -> Prop.
(** The lexers in use keep the ledger in order, and handlers install only such lexers. *)
Hypothesis HL : forall lex, ok lex -> keeps_books fails what lex (lexes lex).
Hypothesis HF : forall f vs, installs ok (f_body (code f) vs).

Local Notation b_exec := (b_exec_text fails what code sg catching lexes).
Local Notation b_input := (b_exec_input fails what code sg catching lexes).
Local Notation b_commands := (b_session fails what code sg catching lexes).

(** What execute returns or throws is one of the outcomes of C79.  The blocks in use are those
    of before, and those of the result if there is one. *)
Theorem C80_execute : forall d s cmd h, lexed ok s -> ledger h ->
  match b_exec d s cmd h with
  | Done (h', (s', inl r)) =>
      lexed ok s' /\ ledger h' /\ gained h h' (own_result r) /\
      x_executes code sg catching (StdException what) s cmd s' (inl (see_result r))
  | Done (h', (s', inr x)) =>
      lexed ok s' /\ ledger h' /\ gained h h' [] /\
      x_executes code sg catching (StdException what) s cmd s' (inr x)
  | Fault f => exists l, x_exec_text code sg catching what d l s cmd = Fault f
  end.
Proof.
  intros d s cmd h G Hh.
  pose proof (exec_text_fits fails what code sg catching lexes ok HL HF d s cmd h G Hh) as H.
  unfold answer_fits in H. destruct (b_exec d s cmd h) as [[h1 [s1 [r|x]]]|f].
  - destruct H as (G1 & l & (K & B & _) & X). cbn [own_answer see_answer] in *.
    rewrite gained_bal. split; [exact G1|]. split; [exact K|]. split; [exact B|].
    apply C79_text_iff. exists d, (l ++ []), []. apply X.
  - destruct H as (G1 & l & (K & B & _) & X). cbn [own_answer see_answer] in *.
    rewrite gained_bal. split; [exact G1|]. split; [exact K|]. split; [exact B|].
    apply C79_text_iff. exists d, (l ++ []), []. apply X.
  - destruct H as (l & _ & X). exists (l ++ []). apply X.
Qed.

(** Once the result is destroyed the blocks in use are those of before. *)
Theorem C80_execute_freed : forall d s cmd h h' s' r, lexed ok s -> ledger h ->
  b_exec d s cmd h = Done (h', (s', inl r)) ->
  exists h'', result_destroy r h' = Done h'' /\ ledger h'' /\ Permutation (h_live h'') (h_live h).
Proof.
  intros d s cmd h h' s' r G Hh E. pose proof (C80_execute d s cmd h G Hh) as H.
  rewrite E in H. destruct H as (_ & K & B & _). apply gained_bal in B.
  destruct (dok_result r h' K) as (h2 & E2 & K2 & B2 & _).
  { intros a. specialize (B a). cbn [occ] in B. lia. }
  exists h2. split; [exact E2|]. split; [exact K2|]. apply eqv_perm. intros a.
  specialize (B a). specialize (B2 a). cbn [occ] in *. lia.
Qed.

(** If no request failed, the execution is that of C26-C34. *)
Theorem C80_no_request_failed : forall d s cmd h h' s' r, lexed ok s -> ledger h ->
  b_exec d s cmd h = Done (h', (s', r)) -> none_failed fails h h' ->
  exec_text code sg catching d s cmd =
  Done (s', match r with inl r => inl (see_result r) | inr x => inr x end).
Proof.
  intros d s cmd h h' s' r G Hh E N.
  pose proof (exec_text_fits fails what code sg catching lexes ok HL HF d s cmd h G Hh) as H.
  unfold answer_fits in H. rewrite E in H. destruct H as (G1 & l & (K & B & S & L) & X).
  specialize (X []). rewrite app_nil_r in X.
  pose proof (C79_enough_memory _ _ code sg catching what d l s cmd) as Q. rewrite X in Q. apply Q.
  intros [|] Hin; [|reflexivity]. destruct (S Hin) as (n & Hn & En). now rewrite (N n Hn) in En.
Qed.

(** With enough memory, for all handlers, also those that execute commands themselves. *)
Theorem C80_enough_memory : forall d s cmd h, lexed ok s -> ledger h -> (forall n, fails n = false) ->
  exec_text code sg catching d s cmd =
  match b_exec d s cmd h with
  | Done (_, (s', inl r)) => Done (s', inl (see_result r))
  | Done (_, (s', inr x)) => Done (s', inr x)
  | Fault f => Fault f
  end.
Proof.
  intros d s cmd h G Hh Hn.
  destruct (b_exec d s cmd h) as [[h1 [s1 r]]|f] eqn:E.
  - rewrite (C80_no_request_failed d s cmd h h1 s1 r G Hh E (fun n _ => Hn n)). now destruct r.
  - pose proof (exec_text_fits fails what code sg catching lexes ok HL HF d s cmd h G Hh) as H.
    unfold answer_fits in H. rewrite E in H. destruct H as (l & Q & X).
    specialize (X []). rewrite app_nil_r in X.
    pose proof (C79_enough_memory _ _ code sg catching what d l s cmd) as P. rewrite X in P. apply P.
    intros [|] Hin; [|reflexivity]. destruct (Q Hin) as (n & En). now rewrite Hn in En.
Qed.

(** When exceptions are caught, execute throws only std::bad_alloc, and only if a request has
    failed. *)
Theorem C80_throws_only_bad_alloc : forall d s cmd h h' s' x, lexed ok s -> ledger h ->
  catching = true -> b_exec d s cmd h = Done (h', (s', inr x)) ->
  x = StdException what /\ some_failed fails h h'.
Proof.
  intros d s cmd h h' s' x G Hh Hc E.
  pose proof (exec_text_fits fails what code sg catching lexes ok HL HF d s cmd h G Hh) as H.
  unfold answer_fits in H. rewrite E in H. destruct H as (G1 & l & (K & B & S & L) & X).
  specialize (X []). rewrite app_nil_r in X. cbn [see_answer] in X. rewrite Hc in X. split.
  - now apply C79_only_bad_alloc in X.
  - apply S. destruct (in_dec Bool.bool_dec true l) as [Hin|Hout]; [exact Hin|exfalso].
    pose proof (C79_enough_memory _ _ code sg true what d l s cmd) as Q. rewrite X in Q.
    apply (C34_text_never_propagates_when_caught _ _ code sg d s cmd s' x). apply Q.
    intros [|] Hin; [contradiction|reflexivity].
Qed.

(** Running out of memory adds no undefined behaviour. *)
Theorem C80_no_new_faults : forall d s cmd h f, lexed ok s -> ledger h ->
  (forall f vs, only no_nesting (f_body (code f) vs)) ->
  b_exec d s cmd h = Fault f -> exec_text code sg catching d s cmd = Fault f.
Proof.
  intros d s cmd h f G Hh O E. pose proof (C80_execute d s cmd h G Hh) as H. rewrite E in H.
  destruct H as (l & H). eapply C79_no_new_faults; [exact O|exact H].
Qed.

(** The parsed command that is passed to execute is consumed. *)
Theorem C80_execute_input : forall d s inp h, lexed ok s -> ledger h ->
  (exists rest, Permutation (h_live h) (own_input inp ++ rest)) ->
  match b_input d s inp h with
  | Done (h', (s', inl r)) =>
      ledger h' /\ Permutation (own_input inp ++ h_live h') (own_result r ++ h_live h) /\
      x_answers code sg catching (StdException what) s (see_input inp) s' (inl (see_result r))
  | Done (h', (s', inr x)) =>
      ledger h' /\ Permutation (own_input inp ++ h_live h') (h_live h) /\
      x_answers code sg catching (StdException what) s (see_input inp) s' (inr x)
  | Fault f => exists l, x_exec_input code sg catching what d l s (see_input inp) = Fault f
  end.
Proof.
  intros d s inp h G Hh (rest & Hp). apply eqv_perm in Hp.
  assert (Hhas : has h (own_input inp)).
  { intros a. specialize (Hp a). rewrite occ_app in Hp. lia. }
  pose proof (exec_input_fits fails what code sg catching lexes ok HL HF d s inp h G Hh Hhas) as H.
  unfold answer_fits in H. destruct (b_input d s inp h) as [[h1 [s1 [r|x]]]|f].
  - destruct H as (G1 & l & (K & B & _) & X). cbn [own_answer see_answer] in *.
    split; [exact K|]. split.
    { apply eqv_perm. intros a. specialize (B a). rewrite !occ_app. lia. }
    apply C79_input_iff. exists d, (l ++ []), []. apply X.
  - destruct H as (G1 & l & (K & B & _) & X). cbn [own_answer see_answer] in *.
    split; [exact K|]. split.
    { apply eqv_perm. intros a. specialize (B a). rewrite !occ_app. cbn [occ] in B. lia. }
    apply C79_input_iff. exists d, (l ++ []), []. apply X.
  - destruct H as (l & _ & X). exists (l ++ []). apply X.
Qed.

(** However many commands an application executes, in the end the blocks in use are those of
    the beginning. *)
Theorem C80_session : forall d cmds s h h' s', lexed ok s -> ledger h ->
  b_commands d s cmds h = Done (h', s') -> ledger h' /\ Permutation (h_live h') (h_live h).
Proof.
  intros d. induction cmds as [|cmd r IH]; intros s h h' s' G Hh E; cbn [b_session] in E.
  { injection E as <- <-. split; [exact Hh|apply Permutation_refl]. }
  pose proof (C80_execute d s cmd h G Hh) as H.
  destruct (b_exec d s cmd h) as [[h1 [s1 [q|x]]]|f] eqn:Ex; cbn [bind] in E; [| |discriminate].
  - destruct (C80_execute_freed d s cmd h h1 s1 q G Hh Ex) as (h2 & E2 & K2 & P2).
    rewrite E2 in E. cbn [bind] in E. destruct (IH s1 h2 h' s' (proj1 H) K2 E) as [K P].
    split; [exact K|]. now rewrite P.
  - destruct H as (G1 & K & B & _). destruct (IH s1 h1 h' s' G1 K E) as [K' P].
    split; [exact K'|]. rewrite P. exact B.
Qed.
End Execution.

(** ** The default lexer *)

(** It keeps the ledger in order, so all of this holds for Bindings that use it. *)
Theorem C80_default_lexer : forall fails what sg cfg,
  keeps_books fails what (parse_input sg cfg) (b_default fails what sg cfg).
Proof. exact default_books. Qed.

Theorem C80_default_session : forall W F fails what (code : F -> functor W F) sg catching cfg d cmds
    s h h' s',
  (forall f vs, installs (fun lex => lex = parse_input sg cfg) (f_body (code f) vs)) ->
  s_lexer s = Some (parse_input sg cfg) -> ledger h ->
  b_session fails what code sg catching (fun _ => b_default fails what sg cfg) d s cmds h = Done (h', s') ->
  ledger h' /\ Permutation (h_live h') (h_live h).
Proof.
  intros W F fails what code sg catching cfg d cmds s h h' s' HF Hs Hh E.
  apply (C80_session fails what code sg catching (fun _ => b_default fails what sg cfg)
           (fun lex => lex = parse_input sg cfg)) with (d := d) (cmds := cmds) (s := s) (s' := s').
  - intros lex ->. apply C80_default_lexer.
  - exact HF.
  - intros lex El. rewrite Hs in El. now injection El as <-.
  - exact Hh.
  - exact E.
Qed.

(** ** Examples *)

(** Three blocks are in use before. *)
Definition ex_heap : heap := Heap [2; 0; 1] 3 0.
Definition ex_lexes (fails : nat -> bool) (_ : lexer) := b_default fails ex_what true default_cfg.
Definition ex_ok (lex : lexer) : Prop := lex = parse_input true default_cfg.

Example C80_ex_ledger : ledger ex_heap.
Proof.
  split; [|intros a [<-|[<-|[<-|[]]]]; cbn; lia].
  repeat constructor; cbn; intuition discriminate.
Qed.
Example C80_ex_lexers : forall fails lex, ex_ok lex -> keeps_books fails ex_what lex (ex_lexes fails lex).
Proof. intros fails lex ->. apply C80_default_lexer. Qed.
Example C80_ex_handlers : forall f vs, installs ex_ok (f_body (ex_code f) vs).
Proof. intros f vs. destruct f; cbn; auto. Qed.
Lemma register_all_lexer : forall t s s', register_all true s t = Done s' -> s_lexer s' = s_lexer s.
Proof.
  induction t as [|[n fs] t IH]; intros s s' H; cbn [register_all] in H; [now injection H as <-|].
  destruct (add true s n fs) as [s1|] eqn:E; cbn [bind] in H; [|discriminate].
  rewrite (IH _ _ H). now apply (add_lexer true _ _ _ _ E).
Qed.
Example C80_ex_lexed : lexed ex_ok ex_state.
Proof.
  intros lex. unfold ex_state.
  destruct (register_all true (fresh_bindings true 40%Z) ex_table) as [s|f] eqn:E.
  - rewrite (register_all_lexer _ _ _ E). intros H. now injection H as <-.
  - intros H. now injection H as <-.
Qed.
Example C80_ex_input : exists rest, Permutation (h_live ex_heap)
  (own_input (BInput (lit "sum") (VAt 1 1 [VAt 2 1 [lit "1"]]) VNull) ++ rest).
Proof. exists [0]. apply eqv_perm. intros a. cbn. lia. Qed.

(** Parsing "f (a b) k=c": with all the memory, and with each request failing in turn. *)
Definition ex_parse (fails : nat -> bool) :=
  match b_parse fails ex_what true default_cfg (lit "f (a b) k=c") ex_heap with
  | Done (h, inl r) => Some (h_asked h, h_live h, own_parsed r, true)
  | Done (h, inr x) => Some (h_asked h, h_live h, [], false)
  | Fault _ => None
  end.
Example C80_ex_parse :
  ex_parse (fun _ => false) = Some (10, [12; 11; 10; 9; 2; 0; 1], [10; 9; 12; 11], true).
Proof. vm_compute. reflexivity. Qed.
Example C80_ex_parse_failing :
  map (fun n => ex_parse (Nat.eqb n)) (seq 0 10) =
  map (fun n => Some (S n, [2; 0; 1], [], false)) (seq 0 10).
Proof. vm_compute. reflexivity. Qed.
Example C80_ex_not_ill : ~ ill_command (cfg_classes true default_cfg) (lit "f (a b) k=c").
Proof.
  intros H. apply C01_parse_faults_iff in H. destruct H as (f & H). vm_compute in H. discriminate.
Qed.

(** Executing commands: the number of requests, the blocks in use, the state of the
    application, and the result: its blocks, its errors, return value and output. *)
Definition ex_exec (cmd : string) (fails : nat -> bool) :=
  match b_exec_text fails ex_what ex_code true true (ex_lexes fails) 5 ex_state (lit cmd) ex_heap with
  | Done (h, (s, inl r)) =>
      Some (h_asked h, h_live h, s_world s, inl (own_result r, map str_text (items (br_errors r)),
        option_map str_text (br_return r), str_text (br_output r)))
  | Done (h, (s, inr x)) => Some (h_asked h, h_live h, s_world s, inr x)
  | Fault _ => None
  end.

(** A handler that executes a command: the result of that is gone. *)
Example C80_ex_nest :
  ex_exec "nest" (fun _ => false) =
  Some (14, [16; 4; 2; 0; 1], 40%Z, inl ([16; 4], [], Some (lit "7"), [])).
Proof. vm_compute. reflexivity. Qed.

(** An argument that does not convert: the message is copied, the first one is gone. *)
Example C80_ex_conversion :
  ex_exec "sum a" (fun _ => false) =
  Some (9, [11; 10; 7; 6; 5; 2; 0; 1], 40%Z,
        inl ([6; 5; 11; 10; 7], [lit "Unable to convert 'a' to type 'int'"], None, [])).
Proof. vm_compute. reflexivity. Qed.

(** A handler that logs, changes the state and throws; each request fails in turn. *)
Example C80_ex_boom :
  map (fun n => ex_exec "boom" (Nat.eqb n)) (seq 0 7) =
  [Some (1, [2; 0; 1], 40%Z, inr (StdException ex_what));
   Some (2, [2; 0; 1], 40%Z, inr (StdException ex_what));
   Some (6, [7; 6; 4; 2; 0; 1], 40%Z,
         inl ([7; 6; 4], [lit "Exception caught during execution: std::bad_alloc"], None, []));
   Some (7, [8; 7; 4; 2; 0; 1], 40%Z,
         inl ([8; 7; 4], [lit "Exception caught during execution: std::bad_alloc"], None, []));
   Some (5, [2; 0; 1], 9%Z, inr (StdException ex_what));
   Some (6, [2; 0; 1], 9%Z, inr (StdException ex_what));
   Some (7, [2; 0; 1], 9%Z, inr (StdException ex_what))].
Proof. vm_compute. reflexivity. Qed.

(** A session in which every seventh request fails. *)
Example C80_ex_session :
  match b_session (fun n => n mod 7 =? 5) ex_what ex_code true true (ex_lexes (fun n => n mod 7 =? 5)) 5
          ex_state [lit "sum 1 2"; lit "boom"; lit "hello w"; lit "f ("; lit "nest"; lit "sum a"] ex_heap with
  | Done (h, _) => Some (h_asked h, h_live h)
  | Fault _ => None
  end = Some (41, [2; 0; 1]).
Proof. vm_compute. reflexivity. Qed.

(** * Assumptions *)
Print Assumptions C80_parse.
Print Assumptions C80_parse_safe.
Print Assumptions C80_parse_freed.
Print Assumptions C80_parse_enough_memory.
Print Assumptions C80_execute.
Print Assumptions C80_execute_freed.
Print Assumptions C80_no_request_failed.
Print Assumptions C80_enough_memory.
Print Assumptions C80_throws_only_bad_alloc.
Print Assumptions C80_no_new_faults.
Print Assumptions C80_execute_input.
Print Assumptions C80_session.
Print Assumptions C80_default_lexer.
Print Assumptions C80_default_session.
