(** Property C77: the console of the examples. *)
From Coq Require Import Ascii String NArith ZArith Bool PeanoNat Lia List.
Import ListNotations.
From Verif Require Import Util Base StringConv StringConvSpec SerializerSpec Serializer Lexer LexerSpec LexerMeta LexerProofs
  SerializerProofs UMap UMapSpec Exec ExecSpec ExecProofs P_Exec P_Exec2 P_Lexer P_Reentry P_EndToEnd
  UserTypesSpec UserTypesProofs Console ConsoleSpec.

Local Notation length := List.length.

(** * C77  The console of the examples *)

Lemma register_seen sg l : forall (s : state world func) h, holds sg s h -> NoDup (map fst l) ->
  exists s', Console.register sg s l = Done s' /\ s_lexer s' = s_lexer s /\ s_world s' = s_world s /\
    (forall n fs, In (n, fs) l -> exists cmd, get sg s' n = Done (Some cmd) /\ map snd (c_functors cmd) = fs) /\
    (forall n, ~ In n (map fst l) -> get sg s' n = get sg s n).
Proof.
  induction l as [|[n fs] l IH]; intros s h H D.
  - exists s. cbn. repeat split; easy.
  - cbn [map fst] in D. apply NoDup_cons_iff in D. destruct D as [D1 D2].
    destruct (C50_addition_seen sg s h n fs H) as (s1 & cmd & E & H1 & M & G & O).
    destruct (IH s1 _ H1 D2) as (s' & E' & L' & W' & B' & O').
    exists s'. cbn [Console.register]. rewrite E. cbn [bind]. rewrite E'.
    split; [reflexivity|]. unfold add in E.
    destruct (insertOrAssign _ _ _ _ _) as [m|] eqn:Q; [|discriminate E]. injection E as <-.
    split; [exact L'|]. split; [exact W'|]. split.
    + intros n' fs' [[= <- <-]|I]; [|now apply B'].
      exists cmd. split; [|exact M]. rewrite O' by assumption. exact G.
    + intros n' N. cbn [map fst In] in N. rewrite O' by tauto. apply O. intros ->. apply N. now left.
Qed.

(** A state in which the commands of the console are registered, and no others. *)
Definition ready (sg : bool) (s : state world func) : Prop :=
  s_lexer s = Some (parse_input sg default_cfg) /\
  (forall n fs, In (n, fs) commands -> exists cmd, get sg s n = Done (Some cmd) /\ map snd (c_functors cmd) = fs) /\
  (forall n, ~ known n -> get sg s n = Done None).

Lemma ready_world sg s w : ready sg s -> ready sg (set_world s w).
Proof. intros (A & B & C). split; [exact A|]. split; [exact B|exact C]. Qed.

Lemma set_world_twice (s : state world func) w w' : set_world (set_world s w) w' = set_world s w'.
Proof. reflexivity. Qed.

Lemma registered sg w : exists s,
  Console.register sg (fresh_bindings sg w) commands = Done s /\ ready sg s /\ s_world s = w.
Proof.
  destruct (register_seen sg commands (fresh_bindings sg w) [] (C50_fresh_holds _ _)) as (s & E & L & Hw & B & O).
  { vm_compute. repeat constructor; cbn; intuition discriminate. }
  exists s. split; [exact E|]. split; [|exact Hw]. split; [exact L|]. split; [exact B|].
  intros n N. rewrite O; [rewrite (holds_get sg _ [] (C50_fresh_holds _ _)); reflexivity|]. intros I. apply N. clear - I. unfold known.
  unfold commands in I. rewrite map_app, in_app_iff in I. destruct I as [I|I].
  - cbn [map fst In] in I. destruct I as [<-|[<-|[<-|[]]]]; auto.
  - do 3 right. exact I.
Qed.

(** ** Executing one line *)

Section Line.
Variable demo : nat -> bytes.
Variables sg catching : bool.
Variable d : nat.
Local Notation C := (cfg_classes sg default_cfg).
Local Notation exec := (exec_text (code demo) sg catching).
Local Notation put s t := (set_world s (write (s_world s) t)).

Lemma text_input s line name pos named : ready sg s -> LexerSpec.command C line (inl (SInput name pos named)) ->
  forall dep, exec dep s line = exec_input (code demo) sg catching dep s (Input name pos named).
Proof.
  intros (L & _) P dep. apply C07_value_iff_wellformed in P.
  unfold exec_text, execute_text. rewrite L, P. reflexivity.
Qed.

(** A command without arguments whose only overload is [f]. *)
Lemma single s name f : ready sg s -> In (name, [f]) commands ->
  exists n sid, get sg s name = Done (Some (Command n [(sid, f)])).
Proof.
  intros (_ & B & _) I. destruct (B _ _ I) as ([n fs] & G & M). cbn [c_functors] in M.
  destruct fs as [|[sid g] [|? ?]]; try discriminate. cbn in M. injection M as ->. eauto.
Qed.

Lemma no_params f : f_params (code demo f) = [].
Proof. now destruct f. Qed.

Lemma commands_named name f : In (name, [f]) commands -> name <> [].
Proof.
  intros I ->. cbn in I. repeat (destruct I as [I|I]; [discriminate I|]). destruct I.
Qed.

Lemma command_known name : known name -> exists f, In (name, [f]) commands.
Proof.
  intros [->|[->|[->|I]]]; [exists FHelp; now left|exists FExit; right; now left|exists FRunAll; right; right; now left|].
  assert (K : forall l i, In name l -> exists f, In (name, [f]) (example_commands l i)).
  { induction l as [|n l IH]; intros i []; [subst n; exists (FExample i); now left|].
    destruct (IH (S i) H) as (f & J). exists f. now right. }
  destruct (K names 0 I) as (f & J). exists f. unfold commands. apply in_app_iff. now right.
Qed.

Lemma too_many s name f pos named dep : ready sg s -> In (name, [f]) commands -> pos <> [] ->
  exists msg, arity_message name [0] (length pos) msg /\
    exec_input (code demo) sg catching dep s (Input name pos named) =
    Done (s, inl (failure (Input name pos named) [msg])).
Proof.
  intros R I Np. destruct (single _ _ _ R I) as (n & sid & G).
  destruct (C31_wrong_arity_message _ _ (code demo) sg catching dep s (Input name pos named) _ (commands_named _ _ I) G)
    as (msg & A & E).
  { intros g [<-|[]]. cbn [snd i_args]. rewrite no_params. destruct pos; [easy|discriminate]. }
  cbn [c_functors map snd i_name i_args] in A. rewrite no_params in A. eauto.
Qed.

(** Running a handler without arguments. *)
Lemma run_one s name f named dep ctx (body : unit -> prog world func unit) s' c' :
  ready sg s -> In (name, [f]) commands -> code demo f = Functor ctx [] RVoid body ->
  (forall sid, run_prog sg (nested_exec (code demo) sg catching dep) sid s
                 (CallCtx (Input name [] named) empty_result) (body tt) = Done (s', c', inl tt)) ->
  r_return (cc_result c') = None -> cc_hasErrors c' = false ->
  exec_input (code demo) sg catching dep s (Input name [] named) =
  Done (s', inl (Result (cc_input c') (r_errors (cc_result c')) None (r_output (cc_result c')))).
Proof.
  intros R I Ef Run Rt He. destruct (single _ _ _ R I) as (n & sid & G).
  assert (Ne := commands_named _ _ I).
  unfold exec_input, execute_input, execute_ctx. cbn [cc_input i_name].
  destruct name as [|c0 r0]; [easy|]. rewrite G. cbn [bind c_functors dispatch].
  rewrite arity_params. cbn [snd]. rewrite no_params. cbn [cc_input i_args length Nat.eqb].
  unfold invokeTrampoline. cbn [snd fst cc_input i_args]. rewrite Ef. cbn [f_params convert bind].
  unfold invoke. cbn [f_params any_failed take_values bind f_body f_result].
  rewrite Run. cbn [bind rtext]. rewrite He. cbn [cc_return cc_result r_errors r_output r_return cc_input].
  reflexivity.
Qed.

Lemma exit_input s named dep : ready sg s ->
  exec_input (code demo) sg catching dep s (Input (lit "exit") [] named) =
  Done (set_world s (World true (w_out (s_world s))), inl (Result (Input (lit "exit") [] named) [] None [])).
Proof.
  intros R. refine (run_one s (lit "exit") FExit named dep false _ _
    (CallCtx (Input (lit "exit") [] named) empty_result) R _ eq_refl _ eq_refl eq_refl).
  - right. now left.
  - reflexivity.
Qed.

Lemma example_command i name : nth_error example_names i = Some name -> In (name, [FExample i]) commands.
Proof.
  intros H. unfold commands. apply in_app_iff. right.
  assert (K : forall l j k, nth_error l j = Some name -> In (name, [FExample (k + j)]) (example_commands l k)).
  { induction l as [|n l IH]; intros [|j] k E; try discriminate; cbn in E.
    - injection E as ->. left. now rewrite Nat.add_0_r.
    - right. specialize (IH j (S k) E). now rewrite Nat.add_succ_r. }
  exact (K names i 0 H).
Qed.

Lemma example_input s i name named dep : ready sg s -> nth_error example_names i = Some name ->
  exec_input (code demo) sg catching dep s (Input name [] named) =
  Done (put s (demo i), inl (Result (Input name [] named) [] None [])).
Proof.
  intros R E. refine (run_one s name (FExample i) named dep false _ _
    (CallCtx (Input name [] named) empty_result) R (example_command _ _ E) eq_refl _ eq_refl eq_refl).
  reflexivity.
Qed.

Lemma run_help_names nested sid s : forall l c k,
  run_prog sg nested sid s c (help_names l k) =
  run_prog sg nested sid s (cc_output c (concat (map (fun n => (lit "    " ++ n) ++ [nl]) l))) k.
Proof.
  induction l as [|n l IH]; intros c k.
  - cbn [help_names map concat]. f_equal. destruct c as [i [a b r o]]. unfold cc_output. cbn. now rewrite app_nil_r.
  - cbn [help_names map concat run_prog]. rewrite IH. f_equal. destruct c as [i [a b r o]]. unfold cc_output.
    cbn [cc_result cc_input r_output r_input r_errors r_return]. rewrite <- !app_assoc. reflexivity.
Qed.

Lemma output_twice c a b : cc_output (cc_output c a) b = cc_output c (a ++ b).
Proof. unfold cc_output. cbn [cc_result cc_input r_output r_input r_errors r_return]. now rewrite app_assoc. Qed.

Lemma help_input s named dep : ready sg s ->
  exec_input (code demo) sg catching dep s (Input (lit "help") [] named) =
  Done (s, inl (Result (Input (lit "help") [] named) [] None help_text)).
Proof.
  intros R. refine (run_one s (lit "help") FHelp named dep true _ s
    (CallCtx (Input (lit "help") [] named) (Result no_input [] None help_text)) R _ eq_refl _ eq_refl eq_refl).
  - now left.
  - intros sid. cbn [help run_prog]. unfold help. cbn [run_prog]. rewrite run_help_names. cbn [run_prog].
    rewrite !output_twice. reflexivity.
Qed.

(** The examples run by run_all. *)
Lemma bare_names : Forall bare_name names.
Proof.
  assert (K : forall n, forallb (fun c => orb (orb (andb (97 <=? nat_of_ascii c) (nat_of_ascii c <=? 122)) false) false) n = true -> n <> [] -> bare_name n).
  { intros n H Ne. split; [exact Ne|]. apply Forall_forall. intros c I. rewrite forallb_forall in H.
    specialize (H c I). rewrite !orb_false_r in H. apply andb_true_iff in H. destruct H as [A B].
    apply Nat.leb_le in A. apply Nat.leb_le in B. left. right; right; left. lia. }
  unfold names. repeat (apply Forall_cons; [apply K; [reflexivity|discriminate]|]). apply Forall_nil.
Qed.

Lemma put_nil (s : state world func) : put s [] = s.
Proof. destruct s as [? ? ? [ex o]]. unfold set_world, write. cbn. now rewrite app_nil_r. Qed.

Lemma run_all_body dep sid c : forall l i s, ready sg s -> 
  (forall j name, nth_error l j = Some name -> nth_error example_names (i + j) = Some name /\ bare_name name) ->
  run_prog sg (nested_exec (code demo) sg catching (S dep)) sid s c (run_all l) =
  Done (put s (concat (map demo (seq i (length l)))), c, inl tt).
Proof.
  induction l as [|n l IH]; intros i s R H.
  - cbn [run_all run_prog length seq map concat]. now rewrite put_nil.
  - cbn [run_all run_prog]. destruct (H 0 n eq_refl) as [E B]. rewrite Nat.add_0_r in E.
    assert (P := proj1 (C07_value_iff_wellformed sg default_cfg n _ _ _) (name_parses sg n B)).
    assert (X : nested_exec (code demo) sg catching (S dep) s n = _)
      by exact (eq_trans (text_input s n n [] [] R P dep) (example_input s i n [] dep R E)).
    rewrite X. cbn [bind].
    rewrite (IH (S i)).
    + cbn [length seq map concat]. f_equal. f_equal. f_equal.
      destruct s as [? ? ? [ex o]]. unfold set_world, write. cbn. now rewrite <- app_assoc.
    + now apply ready_world.
    + intros j name' J. specialize (H (S j) name' J). now rewrite Nat.add_succ_r in H.
Qed.

Lemma run_all_input s named dep : ready sg s ->
  exec_input (code demo) sg catching (S dep) s (Input (lit "run_all") [] named) =
  Done (put s (all_demos demo), inl (Result (Input (lit "run_all") [] named) [] None [])).
Proof.
  intros R. refine (run_one s (lit "run_all") FRunAll named (S dep) false _ _
    (CallCtx (Input (lit "run_all") [] named) empty_result) R _ eq_refl _ eq_refl eq_refl).
  - right. right. now left.
  - intros sid. cbv beta. rewrite (run_all_body dep sid _ names 0 s R); [reflexivity|].
    intros j name E. split; [exact E|]. apply nth_error_In in E. revert name E. apply Forall_forall, bare_names.
Qed.

(** ** One line *)

Lemma one_error s s' inp e dep line :
  exec dep s line = Done (s', inl (failure inp [e])) ->
  Console.execute demo sg catching dep s line = Done (put s' (error_line e)).
Proof.
  intros E. unfold Console.execute. rewrite E. cbn [bind snd fst failure r_errors r_output r_return].
  cbn [print_errors print_output print_return app]. unfold error_line, lines. cbn [map concat].
  rewrite !app_nil_r, <- app_assoc. reflexivity.
Qed.

Lemma line_reply s line text stop : ready sg s -> w_exit (s_world s) = false -> replies C demo line text stop ->
  Console.execute demo sg catching (S d) s line =
  Done (set_world s (World stop (w_out (s_world s) ++ text))).
Proof.
  intros R Ex H. assert (Keep : forall t, put s t = set_world s (World false (w_out (s_world s) ++ t))).
  { intros t. unfold write. now rewrite Ex. }
  destruct H as [e P|pos named P|name pos named msg P Ne K U|name pos named msg P K Np A|named P|named P|named P|i name named P E].
  - rewrite (one_error s s no_input (lit "Syntax error: " ++ message e)); [apply f_equal, Keep|].
    unfold exec_text, execute_text. destruct R as (L & _). rewrite L.
    rewrite (proj2 (C07_error_iff_malformed sg default_cfg line (message e))); [reflexivity|eauto].
  - rewrite (one_error s s (Input [] pos named) (lit "No function name is specified")); [apply f_equal, Keep|].
    rewrite (text_input _ _ _ _ _ R P). now apply C30_no_name.
  - destruct (C30_unknown_name _ _ (code demo) sg catching (S d) s (Input name pos named) Ne) as (msg' & U' & E').
    { destruct R as (_ & _ & O). now apply O. }
    assert (msg' = msg).
    { destruct U as (x & X & ->). destruct U' as (x' & X' & ->). cbn [i_name] in X'.
      now rewrite (before_nul_det _ _ X), (before_nul_det _ _ X'). }
    subst msg'. rewrite <- (text_input _ _ _ _ _ R P) in E'. rewrite (one_error _ _ _ _ _ _ E'). apply f_equal, Keep.
  - destruct (command_known name K) as (f & I).
    destruct (too_many s name f pos named (S d) R I Np) as (msg' & A' & E').
    assert (msg' = msg).
    { destruct A as (x & y & z & X & Y & Z & ->). destruct A' as (x' & y' & z' & X' & Y' & Z' & ->).
      rewrite (before_nul_det _ _ X), (before_nul_det _ _ X'), (C31_enumeration_unique _ _ _ Y Y'), (canonical_unique _ _ _ (Nat2Z.is_nonneg _) Z Z'). reflexivity. }
    subst msg'. rewrite <- (text_input _ _ _ _ _ R P) in E'. rewrite (one_error _ _ _ _ _ _ E'). apply f_equal, Keep.
  - unfold Console.execute. rewrite (eq_trans (text_input _ _ _ _ _ R P (S d)) (help_input s named (S d) R)).
    cbn [bind snd fst r_errors r_output r_return print_errors print_return app].
    rewrite app_nil_r. rewrite <- Keep. reflexivity.
  - unfold Console.execute. rewrite (eq_trans (text_input _ _ _ _ _ R P (S d)) (exit_input s named (S d) R)). reflexivity.
  - unfold Console.execute. rewrite (eq_trans (text_input _ _ _ _ _ R P (S d)) (run_all_input s named d R)).
    cbn [bind snd fst r_errors r_output r_return print_errors print_output print_return app].
    rewrite put_nil. apply f_equal, Keep.
  - unfold Console.execute. rewrite (eq_trans (text_input _ _ _ _ _ R P (S d)) (example_input s i name named (S d) R E)).
    cbn [bind snd fst r_errors r_output r_return print_errors print_output print_return app].
    rewrite put_nil. apply f_equal, Keep.
Qed.
End Line.

(** Every line but the ill ones of C01 has exactly one reply. *)
Theorem C77_reply_unique : forall sg demo line text stop text' stop',
  replies (cfg_classes sg default_cfg) demo line text stop ->
  replies (cfg_classes sg default_cfg) demo line text' stop' -> text = text' /\ stop = stop'.
Proof.
  intros sg demo line text stop text' stop' A B.
  destruct (registered sg (World false [])) as (s & _ & R & Hw).
  assert (X : w_exit (s_world s) = false) by now rewrite Hw.
  assert (E := eq_trans (eq_sym (line_reply demo sg false 0 s line _ _ R X A)) (line_reply demo sg false 0 s line _ _ R X B)).
  rewrite Hw in E. injection E as E1 E2. auto.
Qed.

Lemma known_dec name : known name \/ ~ known name.
Proof.
  unfold known. assert (D : forall a b : bytes, {a = b} + {a <> b}) by (apply list_eq_dec, ascii_dec).
  destruct (D name (lit "help")), (D name (lit "exit")), (D name (lit "run_all")), (in_dec D name example_names); tauto.
Qed.

Theorem C77_reply_total : forall sg demo line,
  (exists text stop, replies (cfg_classes sg default_cfg) demo line text stop) \/
  ill_command (cfg_classes sg default_cfg) line.
Proof.
  intros sg demo line. destruct (C07_diagnosis_total sg default_cfg line) as [(r & P)|I]; [left|now right].
  destruct r as [[name pos named]|e]; [|eexists _, _; eapply reply_syntax, P].
  destruct name as [|c0 n0]; [eexists _, _; eapply reply_no_name, P|].
  set (name := c0 :: n0) in *. destruct (known_dec name) as [K|K].
  - destruct pos as [|v pos].
    + destruct K as [E|[E|[E|I]]]; try (rewrite E in P).
      * eexists _, _. eapply reply_help, P.
      * eexists _, _. eapply reply_exit, P.
      * eexists _, _. eapply reply_run_all, P.
      * apply In_nth_error in I. destruct I as (i & E). eexists _, _. eapply reply_example; eauto.
    + eexists _, _. eapply (reply_count _ _ _ name (v :: pos) named); [exact P|exact K|discriminate|].
      exists (c_str name), (printf_zu 0), (printf_zu (length (v :: pos))).
      split; [apply before_nul_c_str|]. split; [apply enum_one, printf_zu_canonical|].
      split; [apply printf_zu_canonical|reflexivity].
  - eexists _, _. eapply (reply_unknown _ _ _ name pos named); [exact P|discriminate|exact K|].
    exists (c_str name). split; [apply before_nul_c_str|reflexivity].
Qed.

Lemma reply_not_ill sg demo line text stop : replies (cfg_classes sg default_cfg) demo line text stop ->
  ~ ill_command (cfg_classes sg default_cfg) line.
Proof. intros []; eapply C07_diagnosis_exclusive; eauto. Qed.

Lemma reply_exit_iff sg demo line text stop : replies (cfg_classes sg default_cfg) demo line text stop ->
  (stop = true <-> exit_line (cfg_classes sg default_cfg) line).
Proof.
  intros H. split.
  - intros ->. inversion H; subst. eexists; eauto.
  - intros (named & P). assert (H' := reply_exit _ demo line named P).
    now destruct (C77_reply_unique _ _ _ _ _ _ _ H H').
Qed.

(** The empty line. *)
Lemma reply_empty sg demo : replies (cfg_classes sg default_cfg) demo [] (error_line (lit "No function name is specified")) false.
Proof.
  apply (reply_no_name _ _ _ [] []). apply (proj1 (C07_value_iff_wellformed sg default_cfg [] [] [] [])).
  destruct sg; vm_compute; reflexivity.
Qed.

(** ** Sessions *)

Section Session.
Variable demo : nat -> bytes.
Variables sg catching : bool.
Variable d : nat.
Local Notation C := (cfg_classes sg default_cfg).
Local Notation main := (main demo sg catching (S d)).
Local Notation loop := (loop demo sg catching (S d)).
Local Notation execute := (Console.execute demo sg catching (S d)).

Lemma line_fault s line : ready sg s -> ill_command C line -> exists f, execute s line = Fault f.
Proof.
  intros (L & _) I. apply parse_input_fault_iff in I. destruct I as (f & I). exists f.
  unfold Console.execute, exec_text, execute_text. rewrite L, I. reflexivity.
Qed.

Lemma started : exists s, Console.start demo sg catching (S d) = Done s /\ ready sg s /\ s_world s = World false help_text.
Proof.
  destruct (registered sg (World false [])) as (s & E & R & Hw).
  exists (set_world s (World false help_text)). split; [|split; [now apply ready_world|reflexivity]].
  unfold Console.start. rewrite E. cbn [bind].
  rewrite (line_reply demo sg catching d s (lit "help") help_text false R); [now rewrite Hw|now rewrite Hw|].
  apply (reply_help _ _ _ []). apply (proj1 (C07_value_iff_wellformed sg default_cfg _ _ _ _)).
  destruct sg; vm_compute; reflexivity.
Qed.

(** One round. *)
Lemma round n s input text stop : ready sg s -> w_exit (s_world s) = false ->
  replies C demo (fst (getline input)) text stop ->
  loop (S n) s input =
  loop n (set_world s (World stop (w_out (s_world s) ++ prompt ++ text))) (snd (getline input)).
Proof.
  intros R X H. cbn [Console.loop]. rewrite X. destruct (getline input) as [line rest]. cbn [fst snd] in *.
  rewrite (line_reply demo sg catching d _ line text stop (ready_world _ _ _ R)); [|exact X|exact H].
  cbn [bind]. rewrite set_world_twice. cbn [s_world set_world write w_out w_exit]. now rewrite <- app_assoc.
Qed.

Lemma loop_stopped n s input : w_exit (s_world s) = true -> loop n s input = Done (s, input, true).
Proof. intros X. destruct n; cbn [Console.loop]; now rewrite X. Qed.

Lemma session_loop input n text rest stop : session C demo input n text rest stop ->
  forall s, ready sg s -> w_exit (s_world s) = false ->
  loop n s input = Done (set_world s (World stop (w_out (s_world s) ++ text)), rest, stop).
Proof.
  induction 1 as [input|line text rest n H|line text rest n text' rest' stop H _ IH|n text' rest' stop _ IH];
    intros s R X.
  - cbn [Console.loop]. rewrite X. rewrite app_nil_r. destruct s as [? ? ? [? ?]]. cbn in X. now subst.
  - rewrite (round n s (line :: rest) text true R X H). now rewrite loop_stopped.
  - rewrite (round n s (line :: rest) text false R X H). cbn [getline snd].
    rewrite IH; [|now apply ready_world|reflexivity]. rewrite set_world_twice.
    cbn [s_world set_world w_out]. now rewrite <- !app_assoc.
  - rewrite (round n s [] _ false R X (reply_empty sg demo)). cbn [getline snd].
    rewrite IH; [|now apply ready_world|reflexivity]. rewrite set_world_twice.
    cbn [s_world set_world w_out]. now rewrite <- !app_assoc.
Qed.

(** A session as described exists unless an ill line is reached. *)
Lemma session_or_ill n : forall input,
  (exists text rest stop, session C demo input n text rest stop) \/
  exists pre line post, input = pre ++ line :: post /\ length pre < n /\ Forall (goes_on C) pre /\ ill_command C line.
Proof.
  induction n as [|n IH]; intros input; [left; eexists _, _, _; apply session_pause|].
  destruct input as [|line rest].
  - destruct (IH []) as [(t & r & st & H)|(pre & line & post & E & _)]; [|now destruct pre].
    left. eexists _, _, _. apply session_eof, H.
  - destruct (C77_reply_total sg demo line) as [(text & [|] & H)|I].
    + left. eexists _, _, _. apply session_exit, H.
    + destruct (IH rest) as [(t & r & st & S')|(pre & l & post & E & Ln & G & I)].
      * left. eexists _, _, _. eapply session_line; eauto.
      * right. exists (line :: pre), l, post. split; [now rewrite E|]. split; [cbn; lia|]. split; [|exact I].
        constructor; [|exact G]. split; [eapply reply_not_ill, H|].
        intros X. apply (reply_exit_iff _ _ _ _ _ H) in X. discriminate X.
    + right. exists [], line, rest. split; [reflexivity|]. split; [cbn; lia|]. split; [constructor|exact I].
Qed.

Lemma ill_loop line post : ill_command C line -> forall pre n s, ready sg s -> w_exit (s_world s) = false ->
  length pre < n -> Forall (goes_on C) pre -> exists f, loop n s (pre ++ line :: post) = Fault f.
Proof.
  intros I. induction pre as [|l pre IH]; intros n s R X Ln G; (destruct n as [|n]; [cbn in Ln; lia|]).
  - cbn [Console.loop app getline]. rewrite X.
    destruct (line_fault _ line (ready_world _ s (write (s_world s) (lit ">>> ")) R) I) as (f & E). exists f.
    rewrite E. reflexivity.
  - apply Forall_cons_iff in G. destruct G as [[Gi Gx] G].
    destruct (C77_reply_total sg demo l) as [(text & stop & H)|K]; [|contradiction].
    assert (stop = false). { destruct stop; [|reflexivity]. exfalso. apply Gx. now apply (reply_exit_iff _ _ _ _ _ H). }
    subst stop. rewrite (round n s ((l :: pre) ++ line :: post) text false R X H). cbn [app getline snd].
    apply IH; [now apply ready_world|reflexivity|cbn in Ln; lia|exact G].
Qed.

(** The console behaves as specified: for any input and any number of rounds, what has been
    written, what has been left unread and whether it has ended are those of the session. *)
Theorem C77_session_iff : forall n input out rest stop,
  (exists s, main n input = Done (s, rest, stop) /\ s_world s = World stop out) <->
  exists text, session C demo input n text rest stop /\ out = help_text ++ text.
Proof.
  intros n input out rest stop. destruct started as (s0 & E0 & R0 & W0). unfold Console.main. rewrite E0. cbn [bind].
  assert (X0 : w_exit (s_world s0) = false) by now rewrite W0. split.
  - intros (s & E & Hw). destruct (session_or_ill n input) as [(t & r & st & H)|(pre & l & post & -> & Ln & G & I)].
    + assert (E' := session_loop _ _ _ _ _ H s0 R0 X0). rewrite E in E'. injection E' as -> -> ->.
      exists t. split; [exact H|]. cbn [s_world set_world] in Hw. injection Hw as <-. now rewrite W0.
    + destruct (ill_loop l post I pre n s0 R0 X0 Ln G) as (f & E'). rewrite E in E'. discriminate E'.
  - intros (t & H & ->). eexists. split; [apply (session_loop _ _ _ _ _ H s0 R0 X0)|]. now rewrite W0.
Qed.

(** It crashes exactly if it gets to an ill line. *)
Theorem C77_crash_iff : forall n input,
  (exists f, main n input = Fault f) <->
  exists pre line post, input = pre ++ line :: post /\ length pre < n /\
    Forall (goes_on C) pre /\ ill_command C line.
Proof.
  intros n input. destruct started as (s0 & E0 & R0 & W0). unfold Console.main. rewrite E0. cbn [bind].
  assert (X0 : w_exit (s_world s0) = false) by now rewrite W0. split.
  - intros (f & E). destruct (session_or_ill n input) as [(t & r & st & H)|K]; [|exact K].
    rewrite (session_loop _ _ _ _ _ H s0 R0 X0) in E. discriminate E.
  - intros (pre & l & post & -> & Ln & G & I). now apply ill_loop.
Qed.

Lemma session_ends : forall n input text rest,
  session C demo input n text rest true ->
  exists pre line, input = pre ++ line :: rest /\ Forall (goes_on C) pre /\ exit_line C line.
Proof.
  intros n input text rest H. remember true as stop eqn:Es.
  induction H as [input|line text rest n H|line text rest n text' rest' stop H S' IH|n text' rest' stop S' IH].
  - discriminate.
  - exists [], line. split; [reflexivity|]. split; [constructor|]. now apply (reply_exit_iff _ _ _ _ _ H).
  - destruct (IH Es) as (pre & l & -> & G & X). exists (line :: pre), l. split; [reflexivity|]. split; [|exact X].
    constructor; [|exact G]. split; [eapply reply_not_ill, H|].
    intros Y. apply (reply_exit_iff _ _ _ _ _ H) in Y. discriminate Y.
  - destruct (IH Es) as (pre & l & E & _). now destruct pre.
Qed.

Lemma ends_session line post : exit_line C line -> forall pre, Forall (goes_on C) pre ->
  exists text, session C demo (pre ++ line :: post) (S (length pre)) text post true.
Proof.
  intros X. induction pre as [|l pre IH]; intros G.
  - destruct X as (named & P). exists (prompt ++ []). apply session_exit. eapply reply_exit, P.
  - apply Forall_cons_iff in G. destruct G as [[Gi Gx] G].
    destruct (C77_reply_total sg demo l) as [(text & stop & H)|K]; [|contradiction].
    assert (stop = false). { destruct stop; [|reflexivity]. exfalso. apply Gx. now apply (reply_exit_iff _ _ _ _ _ H). }
    subst stop. destruct (IH G) as (t & S'). exists (prompt ++ text ++ t). apply session_line; assumption.
Qed.

(** It ends exactly if a line says so before an ill one is reached; the lines after it are not
    read.  Arguments given by name do not matter: exit and exit now=1 are both such lines. *)
Theorem C77_ends_iff : forall input rest,
  (exists n s, main n input = Done (s, rest, true)) <->
  exists pre line, input = pre ++ line :: rest /\ Forall (goes_on C) pre /\ exit_line C line.
Proof.
  intros input rest. destruct started as (s0 & E0 & R0 & W0). unfold Console.main. rewrite E0. cbn [bind].
  assert (X0 : w_exit (s_world s0) = false) by now rewrite W0. split.
  - intros (n & s & E). destruct (session_or_ill n input) as [(t & r & st & H)|(pre & l & post & -> & Ln & G & I)].
    + assert (E' := session_loop _ _ _ _ _ H s0 R0 X0). rewrite E in E'. injection E' as _ <- <-.
      eapply session_ends, H.
    + destruct (ill_loop l post I pre n s0 R0 X0 Ln G) as (f & E'). rewrite E in E'. discriminate E'.
  - intros (pre & line & -> & G & X). destruct (ends_session line rest X pre G) as (t & H).
    eexists _, _. apply (session_loop _ _ _ _ _ H s0 R0 X0).
Qed.

(** Full statement (false): the console ends once its input has ended. *)
Definition C77_end_of_input_statement : Prop := forall input, exists n,
  (exists s rest, main n input = Done (s, rest, true)) \/ exists f, main n input = Fault f.

(** Whatever the lines are, as long as none of them is ill or ends the console: it goes on for
    ever, and after the last line it repeats the same error message without end. *)
Theorem C77_end_of_input_refuted : forall input, Forall (goes_on C) input -> exists text, forall k,
  exists s, main (length input + k) input = Done (s, [], false) /\
    w_out (s_world s) = help_text ++ text ++ concat (repeat (prompt ++ error_line (lit "No function name is specified")) k).
Proof.
  intros input G.
  assert (K : exists text, forall k, session C demo input (length input + k)
      (text ++ concat (repeat (prompt ++ error_line (lit "No function name is specified")) k)) [] false).
  { induction G as [|l input [Gi Gx] G IH].
    - exists []. intros k. cbn [length Nat.add app].
      induction k as [|k IH]; [apply session_pause|]. cbn [repeat concat]. rewrite <- app_assoc. now apply session_eof.
    - destruct IH as (t & IH). destruct (C77_reply_total sg demo l) as [(text & stop & H)|I]; [|contradiction].
      assert (stop = false). { destruct stop; [|reflexivity]. exfalso. apply Gx. now apply (reply_exit_iff _ _ _ _ _ H). }
      subst stop. exists (prompt ++ text ++ t). intros k. rewrite <- !app_assoc. cbn [length Nat.add].
      apply session_line; [exact H|apply IH]. }
  destruct K as (text & K). exists text. intros k.
  destruct (proj2 (C77_session_iff (length input + k) input _ _ _) (ex_intro _ _ (conj (K k) eq_refl))) as (s & E & Hw).
  exists s. split; [exact E|]. now rewrite Hw.
Qed.

Theorem C77_end_of_input_statement_refuted : ~ C77_end_of_input_statement.
Proof.
  intros H. destruct (H []) as (n & H').
  destruct (C77_end_of_input_refuted [] (Forall_nil _)) as (t & K). destruct (K n) as (s & E & _). cbn [length Nat.add] in E.
  destruct H' as [(s' & r & E')|(f & E')]; rewrite E in E'; discriminate E'.
Qed.
End Session.

(** ** Examples *)

Definition shown_session (r : outcome (state world func * list bytes * bool)) : option (bytes * list bytes * bool) :=
  match r with Done (s, rest, stop) => Some (w_out (s_world s), rest, stop) | Fault _ => None end.

Definition ex_demo (i : nat) : bytes := lines [lit "example " ++ printf_zu i].

Example C77_ex_session :
  shown_session (main ex_demo true true 1 10
    [lit "enums"; lit "enums 1"; lit "quit"; lit "'"; []; lit " exit now=1 "; lit "help"]) =
  Some (help_text ++
        lit ">>> " ++ lines [lit "example 2"] ++
        lit ">>> " ++ lines [lit "Error: Wrong number of arguments to 'enums': expected 0, got 1"] ++
        lit ">>> " ++ lines [lit "Error: No function 'quit' is registered"] ++
        lit ">>> " ++ lines [lit "Error: Syntax error: Token ''' doesn't have a corresponding opening/closing quote"] ++
        lit ">>> " ++ lines [lit "Error: No function name is specified"] ++
        lit ">>> ", [lit "help"], true).
Proof. vm_compute. reflexivity. Qed.

Example C77_ex_run_all :
  shown_session (main ex_demo false false 1 1 [lit "run_all"]) =
  Some (help_text ++ lit ">>> " ++ concat (map ex_demo (seq 0 13)), [], false).
Proof. vm_compute. reflexivity. Qed.

Example C77_ex_exit : exit_line (cfg_classes true default_cfg) (lit "exit now=1").
Proof.
  exists [(lit "now", [lit "1"])]. apply (proj1 (C07_value_iff_wellformed true default_cfg _ _ _ _)).
  vm_compute. reflexivity.
Qed.

Example C77_ex_goes_on : goes_on (cfg_classes true default_cfg) (lit "exit 1").
Proof.
  assert (P := proj1 (C07_value_iff_wellformed true default_cfg (lit "exit 1") (lit "exit") [[lit "1"]] []) ltac:(vm_compute; reflexivity)).
  split; [eapply C07_diagnosis_exclusive, P|].
  intros (named & P'). assert (E := C07_diagnosis_unique _ _ _ _ _ P P'). discriminate E.
Qed.

Example C77_ex_crash : exists f, main ex_demo true true 1 2 [lit "help"; lit "help (')"] = Fault f.
Proof. vm_compute. eexists. reflexivity. Qed.

(** * Assumptions *)
Print Assumptions C77_reply_unique.
Print Assumptions C77_reply_total.
Print Assumptions C77_session_iff.
Print Assumptions C77_crash_iff.
Print Assumptions C77_ends_iff.
Print Assumptions C77_end_of_input_refuted.
Print Assumptions C77_end_of_input_statement_refuted.
