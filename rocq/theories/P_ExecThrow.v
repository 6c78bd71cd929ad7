(** Property C79: executing commands when memory runs out.

    [x_exec_text code sg catching what d l s cmd] is the model of Bindings::execute(StringView)
    where the operations that allocate fail as the list [l] says; it also returns what is left
    of [l].  [what] is the text of std::bad_alloc::what(). *)
From Coq Require Import Ascii String NArith ZArith Bool PeanoNat Lia List.
From Verif Require Import Util Base StringConv StringConvSpec StringConvProofs
  SerializerSpec Serializer SerializerProofs Lexer UMap
  Exec ExecSpec ExecProofs ExecMore ExecKinds ExecThrow ExecThrowSpec ExecThrowProofs ExecThrowMore
  P_Exec P_Exec2.
Import ListNotations.
Local Notation length := List.length.

(** * C79  Execution when memory runs out *)

(** The executions that are possible are exactly those of the specification. *)
Theorem C79_text_iff : forall W F (code : F -> functor W F) sg catching what s cmd s' r,
  (exists d l l', x_exec_text code sg catching what d l s cmd = Done (l', s', r)) <->
  x_executes code sg catching (StdException what) s cmd s' r.
Proof.
  intros W F code sg catching what s cmd s' r. split.
  - intros (d & l & l' & H). apply x_exec_text_sound in H. exact H.
  - intros H. apply x_complete_all in H. destruct H as (d & l & H). exists d, (l ++ []), [].
    apply H.
Qed.

Theorem C79_input_iff : forall W F (code : F -> functor W F) sg catching what s inp s' r,
  (exists d l l', x_exec_input code sg catching what d l s inp = Done (l', s', r)) <->
  x_answers code sg catching (StdException what) s inp s' r.
Proof.
  intros W F code sg catching what s inp s' r. split.
  - intros (d & l & l' & H). apply x_exec_input_sound in H. exact H.
  - intros H. apply x_complete_all in H. destruct H as (d & l & H). exists d, (l ++ []), [].
    apply H.
Qed.

(** With enough memory the execution is that of C26-C34. *)
Theorem C79_enough_memory : forall W F (code : F -> functor W F) sg catching what d l s cmd,
  (forall b, In b l -> b = false) ->
  match x_exec_text code sg catching what d l s cmd with
  | Done (_, s', r) => exec_text code sg catching d s cmd = Done (s', r)
  | Fault f => exec_text code sg catching d s cmd = Fault f
  end.
Proof.
  intros W F code sg catching what d l s cmd L.
  pose proof (x_text_lucky_ code sg catching what _ _ (nested_lucky code sg catching what d) l s cmd L)
    as H. unfold same in H. unfold x_exec_text, exec_text.
  destruct (x_execute_text _ _ _ _ _ _ _ _) as [[[l' s'] r]|f]; cbn [drop2 fst snd] in H.
  - now destruct H.
  - exact H.
Qed.

(** Running out of memory adds no undefined behaviour. *)
Theorem C79_no_new_faults : forall W F (code : F -> functor W F) sg catching what d l s cmd f,
  (forall f vs, only no_nesting (f_body (code f) vs)) ->
  x_exec_text code sg catching what d l s cmd = Fault f ->
  exec_text code sg catching d s cmd = Fault f.
Proof.
  intros W F code sg catching what d l s cmd f O H.
  unfold x_exec_text, exec_text, x_execute_text, execute_text in *.
  destruct (s_lexer s) as [lex|]; [|now inversion H].
  destruct (ask l) as [[|] l1]; [discriminate|].
  destruct (lex cmd) as [[inp|e]|g]; cbn [bind] in *; [|destruct (ask l1) as [[|] l2]; discriminate|now inversion H].
  now apply (x_input_fault code sg catching what _ _ _ _ _ _ O H).
Qed.

(** When exceptions are caught, nothing but std::bad_alloc reaches the caller. *)
Theorem C79_only_bad_alloc : forall W F (code : F -> functor W F) sg what d l s cmd l' s' x,
  x_exec_text code sg true what d l s cmd = Done (l', s', inr x) -> x = StdException what.
Proof.
  intros W F code sg what d l s cmd l' s' x H. apply x_exec_text_sound in H.
  inversion H as [|? ? ? ? ? ?|? ? lex inp ? ? L P A]; subst; [reflexivity|].
  inversion A; subst; try reflexivity. discriminate.
Qed.

(** Nothing changes unless the handler was called, with all its arguments. *)
Theorem C79_untouched : forall W F (code : F -> functor W F) sg catching what d l s inp l' s' r,
  x_exec_input code sg catching what d l s inp = Done (l', s', r) ->
  s' = s \/
  exists cmd f vs evs nm fin,
    get sg s (i_name inp) = Done (Some cmd) /\
    chosen code (c_functors cmd) (length (i_args inp)) f /\
    converts (f_params (code (snd f))) (i_args inp) vs /\
    x_runs code sg catching (StdException what) _ (fst f) s [] (i_named inp)
      (f_body (code (snd f)) vs) s' evs nm fin.
Proof.
  intros W F code sg catching what d l s inp l' s' r H. apply x_exec_input_sound in H.
  inversion H as [| | | |? ? cmd f ? evs nm t E G C A|? ? cmd f ? evs nm x msg E G C A K M
                 |? ? cmd f ? evs nm x E G C A K|? ? cmd f ? evs nm x E G C A K]; subst; auto;
    inversion A; subst; auto; right;
    match goal with V : converts _ _ ?vs, R : ExecThrowSpec.x_runs _ _ _ _ _ _ _ _ _ _ _ ?e ?n ?x |- _ =>
      exists cmd, f, vs, e, n, x; repeat split; [exact G|exact C|exact V|exact R] end.
Qed.

(** Handlers are called at most once, and never on other arguments. *)
Theorem C79_one_call : forall W F (code : F -> functor W F) sg catching what d l
  (s s' : state (W * list (call code)) F) inp l' r,
  (forall f vs, only no_nesting (f_body (code f) vs)) ->
  x_exec_input (traced code) sg catching what d l s inp = Done (l', s', r) ->
  snd (s_world s') = snd (s_world s) \/
  exists cmd f vs,
    get sg s (i_name inp) = Done (Some cmd) /\
    chosen code (c_functors cmd) (length (i_args inp)) f /\
    converts (f_params (code (snd f))) (i_args inp) vs /\
    snd (s_world s') = snd (s_world s) ++ [existT _ (snd f) vs].
Proof.
  intros W F code sg catching what d l s s' inp l' r O H.
  destruct (C79_untouched _ _ _ _ _ _ _ _ _ _ _ _ _ H) as [->|(cmd & f & vs & evs & nm & fin & G & C & V & R)];
    [now left|].
  apply x_complete_all in R. destruct R as (d' & l0 & R). specialize (R [] [] []).
  change (f_body (traced code (snd f)) vs) with
    (GetState (fun w : W * list (call code) =>
       PutState (fst w, snd w ++ [existT (fun f => args_of (f_params (code f))) (snd f) vs])
         (lift (F := F) (f_body (code (snd f)) vs)))) in R.
  cbn [x_run] in R. revert R. generalize (l0 ++ @nil bool). intros l1 R.
  destruct (ask l1) as [[|] l2]; [injection R as _ <- _ _; now left|].
  destruct (ask l2) as [[|] l3]; [injection R as _ <- _ _; now left|].
  apply x_run_lift in R; [|apply O]. right. exists cmd, f, vs. repeat split; auto.
Qed.

(** A command whose handler executes no commands itself, when exceptions are caught: either its
    result is the one it has with enough memory, or it reports std::bad_alloc after a part of
    the errors, with a part of the output and without a return value. *)
Theorem C79_part_of_the_result : forall W F (code : F -> functor W F) sg what d l s inp l' s' r,
  (forall cmd f vs, get sg s (i_name inp) = Done (Some cmd) -> In f (c_functors cmd) ->
     only no_nesting (f_body (code (snd f)) vs)) ->
  x_exec_input code sg true what d l s inp = Done (l', s', inl r) ->
  exec_input code sg true d s inp = Done (s', inl r) \/
  (r_return r = None /\
   exists es msg, r_errors r = es ++ [msg] /\ exception_message (StdException what) msg /\
     forall s2 r2, exec_input code sg true d s inp = Done (s2, inl r2) ->
       (exists more, r_errors r2 = es ++ more) /\
       (exists more, r_output r2 = r_output r ++ more)).
Proof.
  intros W F code sg what d l s inp l' s' r O H. unfold x_exec_input, x_execute_input, exec_input in *.
  destruct (ask l) as [[|] l0]; [discriminate|]. clear l. rename l0 into l.
  destruct (i_name inp) as [|ch nr] eqn:Q.
  { rewrite x_input_unnamed in H by exact Q. rewrite input_unnamed by exact Q.
    destruct (ask l) as [[|] l1]; [discriminate|]. injection H as <- <- <-. now left. }
  assert (E : i_name inp <> []) by now rewrite Q.
  destruct (get sg s (i_name inp)) as [[cmd|]|] eqn:G.
  - destruct (chosen_or_none code (c_functors cmd) (length (i_args inp))) as [(f & C)|C].
    + assert (L : length (i_args inp) = length (f_params (code (snd f)))).
      { destruct C as (? & ? & _ & C & _). now symmetry. }
      assert (O' : forall vs, only no_nesting (f_body (code (snd f)) vs)).
      { intros vs. apply (O cmd); [now rewrite <- Q|]. destruct C as (bf & af & -> & _).
        apply in_or_app. right. now left. }
      rewrite (x_input_chosen code sg true what _ l s inp cmd f E G C) in H.
      rewrite (input_chosen code sg true _ s inp cmd f E G C).
      rewrite <- (trampoline code sg (nested_exec code sg true d) f s (i_name inp) (i_args inp)
                    (i_named inp) L).
      destruct (x_invokeTrampoline _ _ _ _ _ _ _ _) as [[[[l1 s1] c1] o]|] eqn:T; [|discriminate].
      cbn [bind] in H.
      apply (x_trampoline_prefix code sg what _ (nested_exec code sg true d) f l s _ _ _ _ _ _ _
               O' L) in T.
      destruct T as [T|[-> (evs & nm & -> & T)]].
      * rewrite T. cbn [bind]. left. destruct o as [[]|x]; [now injection H as <- <- <-|].
        destruct (ask l1) as [[|] l2]; [discriminate|]. now injection H as <- <- <-.
      * right. destruct (ask l1) as [[|] l2]; [discriminate|]. injection H as <- <- <-.
        cbn [r_return cc_result ctx_of r_errors r_output]. split; [reflexivity|].
        exists (errors_of evs), (exn_text (StdException what)). split; [reflexivity|].
        split; [apply exn_text_spec|]. intros s2 r2 H2.
        destruct (invokeTrampoline _ _ _ _ _ _) as [[[s3 c3] o3]|]; [|discriminate].
        destruct (T _ _ _ eq_refl) as (more & nm2 & _ & E1 & E2).
        rewrite errors_app in E1. rewrite output_app in E2. cbn [bind] in H2.
        destruct o3 as [[]|x]; injection H2 as <- <-; cbn [r_errors r_output]; rewrite E1, E2.
        -- split; eexists; reflexivity.
        -- split; [exists (errors_of more ++ [exn_text x]); now rewrite app_assoc|].
           eexists; reflexivity.
    + rewrite (x_input_arity code sg true what _ l s inp cmd E G C) in H.
      rewrite (input_arity code sg true _ s inp cmd E G C).
      destruct (ask l) as [[|] l1]; [discriminate|]. injection H as <- <- <-. now left.
  - rewrite (x_input_unknown code sg true what _ l s inp E G) in H.
    rewrite (input_unknown code sg true _ s inp E G).
    destruct (ask l) as [[|] l1]; [discriminate|]. injection H as <- <- <-. now left.
  - exfalso. unfold x_answer, x_execute_ctx in H. cbn [cc_input] in H.
    rewrite Q in H. rewrite <- Q in H. rewrite G in H. discriminate.
Qed.

(** So a result without errors can be trusted. *)
Theorem C79_success_is_success : forall W F (code : F -> functor W F) sg what d l s inp l' s' r,
  (forall cmd f vs, get sg s (i_name inp) = Done (Some cmd) -> In f (c_functors cmd) ->
     only no_nesting (f_body (code (snd f)) vs)) ->
  x_exec_input code sg true what d l s inp = Done (l', s', inl r) -> r_errors r = [] ->
  exec_input code sg true d s inp = Done (s', inl r).
Proof.
  intros W F code sg what d l s inp l' s' r O H E.
  destruct (C79_part_of_the_result _ _ _ _ _ _ _ _ _ _ _ _ O H) as [A|(_ & es & msg & A & _)]; [exact A|].
  rewrite E in A. now destruct es.
Qed.

(** Commands that do not use the registry leave it as it is. *)
Theorem C79_registry_kept : forall W F (code : F -> functor W F) sg catching what d l s cmd l' s' r,
  (forall f vs, only simple (f_body (code f) vs)) ->
  x_exec_text code sg catching what d l s cmd = Done (l', s', r) ->
  s_commands s' = s_commands s /\ s_lexer s' = s_lexer s.
Proof.
  intros W F code sg catching what d l s cmd l' s' r O H. apply x_exec_text_sound in H.
  inversion H as [|? ? ? ? ? ?|? ? lex inp ? ? L P A]; subst; auto.
  apply C79_input_iff in A. destruct A as (d1 & l1 & l2 & A).
  apply C79_untouched in A. destruct A as [->|(c & f & vs & evs & nm & fin & _ & _ & _ & R)]; [auto|].
  apply x_complete_all in R. destruct R as (d' & l0 & R). specialize (R [] [] []).
  apply x_run_simple in R; [|apply O]. destruct R as (w & ->). auto.
Qed.

(** ** Variables *)

Lemma x_run_getter {W F} sg what nx sid T rd : forall (g : functor W F) vs l (s : state W F) c l' s' c' fin,
  g = variable_get T rd ->
  x_run sg what nx sid l s c (f_body g vs) = Done (l', s', c', fin) -> s' = s.
Proof.
  intros g vs l s c l' s' c' fin -> H. cbn [f_body variable_get x_run] in H.
  destruct (ask l) as [[|] l1]; [now injection H as _ <- _ _|].
  destruct (ask l1) as [[|] l2]; now injection H as _ <- _ _.
Qed.

Lemma x_run_setter {W F} sg what nx sid T rd wr :
  forall (g : functor W F) args vs l (s : state W F) c l' s' c' fin,
  g = variable_set T rd wr -> converts (f_params g) args vs ->
  x_run sg what nx sid l s c (f_body g vs) = Done (l', s', c', fin) ->
  s' = s \/ exists v y, args = [v] /\ from_value T v = Value y /\ s' = set_world s (wr y (s_world s)).
Proof.
  intros g args vs l s c l' s' c' fin -> V H. cbn [f_body variable_set x_run] in H.
  pose proof (converts_from_all _ _ _ V) as [E D]. pose proof (converts_length _ _ _ V) as L.
  cbn [f_params variable_set] in *. destruct args as [|v [|v1 args]]; try discriminate.
  cbn [from_all take_values errs_of fst snd bind] in *.
  destruct (from_value T v) as [y|e] eqn:Y; [|discriminate]. injection D as <-. cbn [fst] in H.
  destruct (ask l) as [[|] l1]; [injection H as _ <- _ _; now left|].
  destruct (ask l1) as [[|] l2]; [injection H as _ <- _ _; now left|]. right. exists v, y.
  repeat split; [exact Y|].
  destruct (ask l2) as [[|] l3]; [now injection H as _ <- _ _|].
  destruct (ask l3) as [[|] l4]; now injection H as _ <- _ _.
Qed.

(** A command sent to a variable: afterwards the variable has its old value or the value that
    was assigned, and a result without errors is that of a register.

    The full statement would be that a failed assignment, one that throws or reports an error,
    leaves the variable unchanged, as it does when memory suffices (C36); it is false, see
    [C79_failed_assignment_refuted]. *)
Theorem C79_variable_partial :
  forall W F (code : F -> functor W F) sg what d l s inp T rd wr l' s' r,
  bound code sg s (i_name inp) (variable T rd wr) -> i_name inp <> [] ->
  (forall x w, rd (wr x w) = x) ->
  x_exec_input code sg true what d l s inp = Done (l', s', r) ->
  (s' = s \/
   exists v y, i_args inp = [v] /\ from_value T v = Value y /\ s' = set_world s (wr y (s_world s))) /\
  (forall q, r = inl q -> r_errors q = [] ->
     register T (i_name inp) (rd (s_world s)) (i_args inp) (rd (s_world s')) [] (r_return q)).
Proof.
  intros W F code sg what d l s inp T rd wr l' s' r B Ne Law H.
  pose proof B as B0. apply bound_two in B. destruct B as (n & a & b & G & A & Bb).
  split.
  - destruct (C79_untouched _ _ _ _ _ _ _ _ _ _ _ _ _ H)
      as [->|(cmd & f & vs & evs & nm & fin & G' & C & V & R)]; [now left|].
    rewrite G in G'. injection G' as <-. cbn [c_functors] in C.
    apply x_complete_all in R. destruct R as (d' & l0 & R). specialize (R [] [] []).
    destruct C as (bf & af & E & Hl & _). destruct bf as [|x [|y bf]]; cbn [app] in E.
    + injection E as <- <-. left. now apply (x_run_getter _ _ _ _ T rd) in R.
    + injection E as _ <- _. now apply (x_run_setter _ _ _ _ T rd wr _ (i_args inp)) in R.
    + injection E as _ _ E. now destruct bf.
  - intros q -> E.
    destruct (C36_one_command _ _ code sg true d s inp T rd wr B0 Ne Law) as (w' & es & t & E1 & Rg).
    assert (X : exec_input code sg true d s inp = Done (s', inl q)).
    { eapply C79_success_is_success; [|exact H|exact E]. intros cmd f vs G' I.
      rewrite G in G'. injection G' as <-. cbn [c_functors] in I.
      assert (K : forall (g : functor W F) vs, g = variable_get T rd \/ g = variable_set T rd wr ->
                only no_nesting (f_body g vs)) by (intros g us [->| ->]; simpl; auto).
      apply K. destruct I as [<-|[<-|[]]]; auto. }
    rewrite X in E1. injection E1 as -> ->. cbn [r_errors r_return s_world set_world] in *.
    now rewrite E in Rg.
Qed.

(** ** Examples *)

Definition ex_what : bytes := lit "std::bad_alloc".
Definition ex_unlucky (cmd : string) (l : luck) :=
  match x_exec_text ex_code true true ex_what 5 l ex_state (lit cmd) with
  | Done (_, s, r) => Some (s_world s, match r with
                                       | inl r => inl (r_errors r, r_return r, r_output r)
                                       | inr x => inr x
                                       end)
  | Fault _ => None
  end.

(** A failed assignment: the variable was 40, "var 7" reports an error and returns nothing, but
    the variable is 7.  The text of the result could not be allocated. *)
Theorem C79_failed_assignment_refuted :
  exists (l : luck) msg, exception_message (StdException ex_what) msg /\
    ex_unlucky "var" [] = Some (40%Z, inl ([], Some (lit "40"), [])) /\
    ex_unlucky "var 7" l = Some (7%Z, inl ([msg], None, [])).
Proof.
  exists [false; false; false; false; false; false; false; true],
    (lit "Exception caught during execution: std::bad_alloc").
  split; [|vm_compute; split; reflexivity].
  apply (exn_text_spec (StdException ex_what)).
Qed.

(** The handler logs "x", changes the state to 9 and throws; memory runs out while the
    command is read, for its empty output, before each step of the handler in turn, then when
    the exception is reported. *)
Example C79_ex_boom :
  map (fun n => ex_unlucky "boom" (repeat false n ++ [true])) [0; 1; 2; 3; 4; 5] =
  [Some (40%Z, inr (StdException ex_what));
   Some (40%Z, inr (StdException ex_what));
   Some (40%Z, inl ([lit "Exception caught during execution: std::bad_alloc"], None, []));
   Some (40%Z, inl ([lit "Exception caught during execution: std::bad_alloc"], None, lit "x"));
   Some (9%Z, inl ([lit "Exception caught during execution: std::bad_alloc"], None, lit "x"));
   Some (9%Z, inr (StdException ex_what))].
Proof. vm_compute. reflexivity. Qed.

(** Of two arguments that do not convert only the first is reported. *)
Example C79_ex_conversion :
  ex_unlucky "sum a b" [false; false; false; false; false; true] =
  Some (40%Z, inl ([lit "Unable to convert 'a' to type 'int'";
                    lit "Exception caught during execution: std::bad_alloc"], None, [])).
Proof. vm_compute. reflexivity. Qed.

(** A handler that ignores the failure of the command it executes. *)
Example C79_ex_nest :
  ex_unlucky "nest" [false; false; false; true] = Some (40%Z, inl ([], Some (lit "7"), [])).
Proof. vm_compute. reflexivity. Qed.

(** The hypotheses about handlers hold for most of the example; that about variables too. *)
Example C79_ex_handlers : forall f vs, only no_nesting (f_body (pure_code f) vs).
Proof. exact C26_ex_hyp. Qed.
Definition simple_code (f : ex_fn) : functor Z ex_fn :=
  match f with XNest | XGone => ex_code XOdd | _ => ex_code f end.
Example C79_ex_simple : forall f vs, only simple (f_body (simple_code f) vs).
Proof. intros f vs. destruct f; simpl; auto 10. Qed.
Example C79_ex_bound : bound ex_code true ex_state (lit "var") (variable i32 (fun w => w) (fun x _ => x)).
Proof. exact C36_ex_bound. Qed.

(** * Assumptions *)
Print Assumptions C79_text_iff.
Print Assumptions C79_input_iff.
Print Assumptions C79_enough_memory.
Print Assumptions C79_no_new_faults.
Print Assumptions C79_only_bad_alloc.
Print Assumptions C79_untouched.
Print Assumptions C79_one_call.
Print Assumptions C79_part_of_the_result.
Print Assumptions C79_success_is_success.
Print Assumptions C79_registry_kept.
Print Assumptions C79_variable_partial.
Print Assumptions C79_failed_assignment_refuted.
