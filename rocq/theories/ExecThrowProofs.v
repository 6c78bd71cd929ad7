(** Proofs about [ExecThrow.v]: agreement with [ExecThrowSpec.v]. *)
From Coq Require Import Ascii String NArith ZArith Bool PeanoNat Lia List.
From Verif Require Import Util Base StringConvSpec SerializerSpec StringConvProofs SerializerProofs Serializer Lexer UMap Exec
  ExecSpec ExecProofs ExecThrow ExecThrowSpec.
Import ListNotations.
Local Notation length := List.length.

Section Agree.
Context {W F : Type}.
Variable code : F -> functor W F.
Variable sg catching : bool.
Variable what : bytes.

Local Notation state := (state W F).
Local Notation bad := (bad what).
Local Notation x_runs := (x_runs code sg catching bad).
Local Notation attempts := (attempts code sg catching bad).
Local Notation x_answers := (x_answers code sg catching bad).
Local Notation x_executes := (x_executes code sg catching bad).
Local Notation x_nested_exec := (x_nested_exec code sg catching what).
Local Notation x_exec_text := (x_exec_text code sg catching what).
Local Notation x_exec_input := (x_exec_input code sg catching what).
Local Notation x_execute_input := (x_execute_input code sg catching what).
Local Notation x_answer := (x_answer code sg catching what).
Local Notation x_execute_text := (x_execute_text code sg catching what).
Local Notation x_run := (x_run sg what).
Local Notation x_nested := (@x_nested W F).

Definition x_sound_nested (nested : x_nested) : Prop :=
  forall l s cmd l' s' r, nested l s cmd = Done (l', s', r) -> x_executes s cmd s' r.

Lemma x_add_sound l (s : state) name fs l' s' o :
  x_add sg what l s name fs = Done (l', s', o) ->
  (o = inr bad /\ (s' = s \/ late sg s name s')) \/
  (o = inl tt /\ add sg s name fs = Done s').
Proof.
  unfold x_add. destruct (ask l) as [[|] l1]; [intros [= <- <- <-]; auto|].
  unfold x_room.
  destruct (findNodeIndex _ _ _ _) as [[i|]|] eqn:I; simpl; [| |discriminate].
  - destruct (ask l1) as [[|] l2]; [intros [= <- <- <-]; auto|].
    destruct (add sg s name fs); simpl; [|discriminate]. intros [= <- <- <-]; auto.
  - destruct (load_exceeds _ _) eqn:L; simpl.
    + destruct (rehash _ _ _) as [m|] eqn:R; simpl; [|discriminate].
      destruct (ask l1) as [[|] l2].
      * intros [= <- <- <-]. left. split; [reflexivity|]. right. split; [now split|]. eauto.
      * destruct (add sg s name fs); simpl; [|discriminate]. intros [= <- <- <-]; auto.
    + destruct (ask l1) as [[|] l2]; [intros [= <- <- <-]; auto|].
      destruct (add sg s name fs); simpl; [|discriminate]. intros [= <- <- <-]; auto.
Qed.

Lemma x_run_sound (nested : x_nested) (N : x_sound_nested nested) R n a sid (p : prog W F R) :
  forall l s evs nm l' s' c' fin,
  x_run nested sid l s (ctx_of n a evs nm) p = Done (l', s', c', fin) ->
  exists evs' nm', c' = ctx_of n a evs' nm' /\ x_runs R sid s evs nm p s' evs' nm' fin.
Proof.
  induction p as [r|x|t k IH|t k IH|e k IH|k IH|k IH|i nv k IH|k IH|w k IH|k IH|nme fs k IH
                 |nme k IH|k IH|lx k IH|cmd k IH];
    intros l s evs nm l' s' c' fin H; cbn [ExecThrow.x_run] in H;
    destruct (ask l) as [[|] l1];
    try (injection H as <- <- <- <-; do 2 eexists; split; [reflexivity|constructor]; fail).
  - rewrite ctx_log in H. apply IH in H. destruct H as (e1 & n1 & -> & H).
    do 2 eexists. split; [reflexivity|]. now constructor.
  - rewrite ctx_logline in H. apply IH in H. destruct H as (e1 & n1 & -> & H).
    do 2 eexists. split; [reflexivity|]. now constructor.
  - rewrite ctx_report in H. apply IH in H. destruct H as (e1 & n1 & -> & H).
    do 2 eexists. split; [reflexivity|]. now constructor.
  - apply IH in H. destruct H as (e1 & n1 & -> & H).
    do 2 eexists. split; [reflexivity|]. econstructor; [apply (ctx_has n a evs nm)|exact H].
  - apply IH in H. destruct H as (e1 & n1 & -> & H).
    do 2 eexists. split; [reflexivity|]. now constructor.
  - rewrite ctx_put in H. apply IH in H. destruct H as (e1 & n1 & -> & H).
    do 2 eexists. split; [reflexivity|]. econstructor; [apply replaced_set_nth|exact H].
  - apply IH in H. destruct H as (e1 & n1 & -> & H).
    do 2 eexists. split; [reflexivity|]. now constructor.
  - apply IH in H. destruct H as (e1 & n1 & -> & H).
    do 2 eexists. split; [reflexivity|]. destruct s. now constructor.
  - destruct (is_live s sid) eqn:L; [|discriminate].
    apply IH in H. destruct H as (e1 & n1 & -> & H).
    do 2 eexists. split; [reflexivity|]. constructor; [now apply is_live_stored|exact H].
  - destruct (x_add sg what l1 s nme fs) as [[[l2 s1] o]|] eqn:E; [|discriminate].
    cbn [bind] in H. apply x_add_sound in E. destruct E as [[-> [->|E]]|[-> E]].
    + injection H as <- <- <- <-. do 2 eexists. split; [reflexivity|]. constructor.
    + injection H as <- <- <- <-. do 2 eexists. split; [reflexivity|]. now constructor.
    + apply IH in H. destruct H as (e1 & n1 & -> & H).
      do 2 eexists. split; [reflexivity|]. econstructor; eauto.
  - destruct (remove sg s nme) as [s1|] eqn:E; [|discriminate].
    apply IH in H. destruct H as (e1 & n1 & -> & H).
    do 2 eexists. split; [reflexivity|]. econstructor; eauto.
  - apply IH in H. destruct H as (e1 & n1 & -> & H).
    do 2 eexists. split; [reflexivity|]. now constructor.
  - apply IH in H. destruct H as (e1 & n1 & -> & H).
    do 2 eexists. split; [reflexivity|]. destruct s. now constructor.
  - destruct (nested l1 s cmd) as [[[l2 s1] r]|] eqn:E; [|discriminate]. cbn [bind] in H.
    apply IH in H. destruct H as (e1 & n1 & -> & H).
    do 2 eexists. split; [reflexivity|]. econstructor; eauto.
Qed.

Lemma x_convert_cases ps : forall i pre args l,
  length pre = i -> length args = length ps ->
  exists l', x_convert what ps i l (pre ++ args) = Done (l', inl (from_all ps args)) \/
    (ps <> [] /\ x_convert what ps i l (pre ++ args) = Done (l', inr bad)).
Proof.
  induction ps as [|T ps IH]; intros i pre args l Hi Hl; [exists l; now left|].
  destruct args as [|v args]; [discriminate|]. cbn [x_convert].
  assert (A : at_ (pre ++ v :: args) i = Done v).
  { unfold at_. rewrite nth_error_app2 by lia. now replace (i - length pre) with 0 by lia. }
  rewrite A. cbn [bind]. destruct (ask l) as [[|] l1].
  { exists l1. right. split; [discriminate|reflexivity]. }
  specialize (IH (S i) (pre ++ [v]) args l1). rewrite <- app_assoc in IH. simpl in IH, Hl.
  destruct IH as (l2 & [H|[_ H]]); [rewrite app_length; simpl; lia|lia| |]; rewrite H;
    exists l2; [left; reflexivity|right; split; [discriminate|reflexivity]].
Qed.

Lemma x_report_failed_cases ps : forall es l n a evs nm,
  exists l',
    x_report_failed what ps l es (ctx_of n a evs nm) =
      (l', ctx_of n a (evs ++ map Reported (errs_of ps es)) nm, inl tt) \/
    exists g e r, errs_of ps es = g ++ e :: r /\
      x_report_failed what ps l es (ctx_of n a evs nm) =
        (l', ctx_of n a (evs ++ map Reported g) nm, inr bad).
Proof.
  induction ps as [|T ps IH]; intros es l n a evs nm.
  { exists l. left. simpl. now rewrite app_nil_r. }
  cbn [x_report_failed errs_of]. destruct (fst es) as [x|e]; [apply IH|].
  unfold x_report. destruct (ask l) as [[|] l1].
  { exists l1. right. exists [], e, (errs_of ps (snd es)). simpl. now rewrite app_nil_r. }
  rewrite ctx_report.
  destruct (IH (snd es) l1 n a (evs ++ [Reported e]) nm) as (l2 & [H|(g & e1 & r & E & H)]);
    exists l2; rewrite H, <- app_assoc; [left; reflexivity|right].
  exists (e :: g), e1, r. rewrite E. split; reflexivity.
Qed.

Lemma x_text_sound r l v l' (o : option bytes + exn) :
  x_text what r l v = Done (l', o) ->
  (exists t, o = inl t /\ shows r v t) \/ (o = inr bad /\ r <> RVoid).
Proof.
  destruct r as [|T|T|nm]; cbn [x_text]; intros H;
    [injection H as <- <-; left; eexists; split; [reflexivity|constructor]| | |];
    (destruct (ask l) as [[|] l1]; [injection H as <- <-; right; now split|]);
    match type of H with context [rtext ?q v] => destruct (rtext q v) as [t|] eqn:T' end;
    cbn [bind] in H; try discriminate; injection H as <- <-;
    left; exists t; (split; [reflexivity|now apply rtext_shows]).
Qed.

Lemma x_dispatch_none nested fs l s c :
  none_accepts code fs (length (i_args (cc_input c))) ->
  x_dispatch code sg what nested fs l s c = Done None.
Proof.
  induction fs as [|f fs IH]; intros H; [reflexivity|]. simpl.
  assert (E : (arity (code (snd f)) =? length (i_args (cc_input c))) = false).
  { apply Nat.eqb_neq. rewrite arity_params. apply H. now left. }
  rewrite E. apply IH. intros g I. apply H. now right.
Qed.

Lemma x_dispatch_chosen nested fs l s c f :
  chosen code fs (length (i_args (cc_input c))) f ->
  x_dispatch code sg what nested fs l s c =
  (x <- x_invokeTrampoline code sg what nested f l s c ;; Done (Some x)).
Proof.
  intros (before & after & -> & Ha & Hb).
  induction before as [|g before IH]; simpl; rewrite arity_params.
  - now rewrite Ha, Nat.eqb_refl.
  - destruct (Nat.eqb_spec (length (f_params (code (snd g)))) (length (i_args (cc_input c)))) as [E|_].
    + exfalso. apply (Hb g); [now left|exact E].
    + apply IH. intros h I. apply Hb. now right.
Qed.

(** The ways a command can go, as equations. *)
Lemma x_input_unnamed nested l s inp :
  i_name inp = [] ->
  x_answer nested l s inp =
  (let (b, l) := ask l in
   Done (l, s, if b then inr bad else inl (failure inp [lit "No function name is specified"]))).
Proof.
  intros E. unfold ExecThrow.x_answer, x_execute_ctx, x_report. simpl. rewrite E.
  now destruct (ask l) as [[|] l1].
Qed.

Lemma x_input_unknown nested l s inp :
  i_name inp <> [] -> get sg s (i_name inp) = Done None ->
  x_answer nested l s inp =
  (let (b, l) := ask l in
   Done (l, s, if b then inr bad
               else inl (failure inp [lit "No function '" ++ c_str (i_name inp) ++
                                      lit "' is registered"]))).
Proof.
  intros E G. unfold ExecThrow.x_answer, x_execute_ctx, x_report. simpl.
  destruct (i_name inp) as [|c r] eqn:Q; [easy|]. rewrite G. simpl.
  now destruct (ask l) as [[|] l1].
Qed.

Lemma x_input_arity nested l s inp cmd :
  i_name inp <> [] -> get sg s (i_name inp) = Done (Some cmd) ->
  none_accepts code (c_functors cmd) (length (i_args inp)) ->
  x_answer nested l s inp =
  (let (b, l) := ask l in
   Done (l, s, if b then inr bad
               else inl (failure inp [wrongArityError code (i_name inp) (c_functors cmd)
                                        (length (i_args inp))]))).
Proof.
  intros E G N. unfold ExecThrow.x_answer, x_execute_ctx, x_report. simpl.
  destruct (i_name inp) as [|c r] eqn:Q; [easy|]. rewrite G. simpl.
  rewrite x_dispatch_none by exact N. simpl. now destruct (ask l) as [[|] l1].
Qed.

Lemma x_input_chosen nested l s inp cmd f :
  i_name inp <> [] -> get sg s (i_name inp) = Done (Some cmd) ->
  chosen code (c_functors cmd) (length (i_args inp)) f ->
  x_answer nested l s inp =
  (o <- x_invokeTrampoline code sg what nested f l s
          (ctx_of (i_name inp) (i_args inp) [] (i_named inp)) ;;
   match o with
   | (l', s', c', inl tt) =>
       Done (l', s', inl (Result (cc_input c') (r_errors (cc_result c')) (r_return (cc_result c'))
                                 (r_output (cc_result c'))))
   | (l', s', c', inr x) =>
       if catching
       then let (b, l') := ask l' in
            Done (l', s', if b then inr bad
              else inl (Result (cc_input c') (r_errors (cc_result c') ++ [exn_text x])
                               (r_return (cc_result c')) (r_output (cc_result c'))))
       else Done (l', s', inr x)
   end).
Proof.
  intros E G C. unfold ExecThrow.x_answer, x_execute_ctx. simpl.
  destruct inp as [name args nm]. simpl in *.
  destruct name as [|ch r] eqn:Q; [easy|]. rewrite G. simpl. rewrite <- Q in *.
  change (CallCtx (Input name args nm) empty_result) with (ctx_of name args [] nm).
  rewrite (x_dispatch_chosen nested _ l s (ctx_of name args [] nm) f C).
  destruct (x_invokeTrampoline _ _ _ _ _ _ _ _) as [[[[l' s'] c'] [[]|x]]|]; simpl; try reflexivity.
  destruct catching; [|reflexivity].
  destruct x; unfold x_report; destruct (ask l') as [[|] l2]; reflexivity.
Qed.

Lemma x_trampoline_sound nested (N : x_sound_nested nested) f l s inp l' s' c' o :
  length (i_args inp) = length (f_params (code (snd f))) ->
  x_invokeTrampoline code sg what nested f l s
    (ctx_of (i_name inp) (i_args inp) [] (i_named inp)) = Done (l', s', c', o) ->
  exists evs nm fin, attempts s inp f s' evs nm fin /\
    match fin, o with
    | inl t, inl tt =>
        c' = CallCtx (Input (i_name inp) (i_args inp) nm)
               (Result no_input (errors_of evs) (match errors_of evs with [] => t | _ => None end)
                       (output_of evs))
    | inr x, inr y => x = y /\ c' = ctx_of (i_name inp) (i_args inp) evs nm
    | _, _ => False
    end.
Proof.
  intros L H. unfold x_invokeTrampoline in H. cbn [cc_input ctx_of i_args] in H.
  destruct (x_convert_cases (f_params (code (snd f))) 0 [] (i_args inp) l eq_refl L)
    as (l1 & [C|[P C]]); simpl in C; rewrite C in H; cbn [bind] in H.
  2:{ injection H as <- <- <- <-. exists [], (i_named inp), (inr bad).
      split; [now apply at_unconverted|auto]. }
  unfold x_invoke in H. rewrite any_failed_errs in H.
  pose proof (from_all_errors _ _ L) as CE.
  destruct (errs_of _ (from_all (f_params (code (snd f))) (i_args inp))) as [|e es] eqn:B.
  - destruct (from_all_values _ _ L B) as (vs & TV & V). rewrite TV in H. cbn [bind] in H.
    destruct (ExecThrow.x_run sg what nested (fst f) l1 s _ (f_body (code (snd f)) vs))
      as [[[[l2 s1] c1] fin]|] eqn:Q; [|discriminate]. cbn [bind] in H.
    apply x_run_sound in Q; [|exact N]. destruct Q as (evs & nm & -> & Q).
    destruct fin as [v|x].
    2:{ injection H as <- <- <- <-. exists evs, nm, (inr x). split; [|auto].
        eapply at_throws; eauto. }
    destruct (x_text what (f_result (code (snd f))) l2 v) as [[l3 o3]|] eqn:T; [|discriminate].
    cbn [bind] in H. apply x_text_sound in T. destruct T as [(t & -> & T)|[-> T]].
    + injection H as <- <- <- <-. exists evs, nm, (inl t). split; [eapply at_returns; eauto|].
      unfold cc_hasErrors. simpl. destruct (errors_of evs) eqn:Z; unfold cc_return, ctx_of; simpl;
        now rewrite Z.
    + injection H as <- <- <- <-. exists evs, nm, (inr bad).
      split; [eapply at_unprinted; eauto|auto].
  - destruct (x_report_failed_cases (f_params (code (snd f)))
                (from_all (f_params (code (snd f))) (i_args inp)) l1 (i_name inp) (i_args inp) []
                (i_named inp)) as (l2 & [R|(g & e1 & r & E & R)]);
      rewrite R in H; injection H as <- <- <- <-.
    + rewrite B in *. exists (map Reported (e :: es)), (i_named inp), (inl None).
      split; [apply at_errors; [exact CE|discriminate]|].
      rewrite errors_reported. unfold ctx_of. simpl. now rewrite errors_reported, output_reported.
    + exists (map Reported g), (i_named inp), (inr bad). split; [|auto].
      eapply at_some_errors. rewrite <- E, B. exact CE.
Qed.

Lemma x_answers_sound nested (N : x_sound_nested nested) l s inp l' s' r :
  x_execute_input nested l s inp = Done (l', s', r) -> x_answers s inp s' r.
Proof.
  unfold ExecThrow.x_execute_input.
  destruct (ask l) as [[|] l0]; [intros [= <- <- <-]; apply xa_fails|]. clear l. rename l0 into l.
  intros H. destruct (i_name inp) as [|ch nr] eqn:Q.
  { rewrite x_input_unnamed in H by exact Q.
    destruct (ask l) as [[|] l1]; injection H as <- <- <-; now constructor. }
  assert (E : i_name inp <> []) by now rewrite Q.
  destruct (get sg s (i_name inp)) as [[cmd|]|] eqn:G.
  - destruct (chosen_or_none code (c_functors cmd) (length (i_args inp))) as [(f & C)|C].
    + assert (L : length (i_args inp) = length (f_params (code (snd f)))).
      { destruct C as (? & ? & _ & C & _). now symmetry. }
      rewrite (x_input_chosen nested l s inp cmd f E G C) in H.
      destruct (x_invokeTrampoline _ _ _ _ _ _ _ _) as [[[[l1 s1] c1] o]|] eqn:T; [|discriminate].
      cbn [bind] in H. apply (x_trampoline_sound nested N) in T; [|exact L].
      destruct T as (evs & nm & fin & A & M). destruct fin as [t|x], o as [[]|y]; try easy.
      * subst c1. injection H as <- <- <-. simpl. eapply xa_returns; eauto.
      * destruct M as [<- ->]. destruct catching eqn:K.
        -- destruct (ask l1) as [[|] l2]; injection H as <- <- <-.
           ++ eapply xa_lost; eauto.
           ++ simpl. eapply xa_caught; eauto. apply exn_text_spec.
        -- injection H as <- <- <-. eapply xa_thrown; eauto.
    + rewrite (x_input_arity nested l s inp cmd E G C) in H.
      destruct (ask l) as [[|] l1]; injection H as <- <- <-.
      * apply xa_fails.
      * eapply xa_arity; eauto. apply wrong_arity.
  - rewrite (x_input_unknown nested l s inp E G) in H.
    destruct (ask l) as [[|] l1]; injection H as <- <- <-.
    + apply xa_fails.
    + apply xa_unknown; auto. exists (c_str (i_name inp)).
      split; [apply before_nul_c_str|reflexivity].
  - exfalso. unfold ExecThrow.x_answer, x_execute_ctx in H. simpl in H.
    rewrite Q in H. rewrite <- Q in H. rewrite G in H. discriminate.
Qed.

Lemma x_text_sound_ nested (N : x_sound_nested nested) l s cmd l' s' r :
  x_execute_text nested l s cmd = Done (l', s', r) -> x_executes s cmd s' r.
Proof.
  unfold ExecThrow.x_execute_text. destruct (s_lexer s) as [lex|] eqn:L; [|discriminate].
  destruct (ask l) as [[|] l1]; [intros [= <- <- <-]; eapply xe_fails; eauto|].
  destruct (lex cmd) as [[inp|e]|] eqn:P; cbn [bind]; intros H; try discriminate.
  - eapply xe_parsed; eauto. now apply (x_answers_sound nested) in H.
  - destruct (ask l1) as [[|] l2]; injection H as <- <- <-.
    + eapply xe_fails; eauto.
    + eapply xe_syntax; eauto.
Qed.

Lemma x_nested_sound d : x_sound_nested (x_nested_exec d).
Proof.
  induction d as [|d IH]; [intros l s cmd l' s' r H; discriminate|].
  intros l s cmd l' s' r H. now apply (x_text_sound_ (x_nested_exec d)) in H.
Qed.

Lemma x_exec_text_sound d l s cmd l' s' r :
  x_exec_text d l s cmd = Done (l', s', r) -> x_executes s cmd s' r.
Proof. apply x_text_sound_, x_nested_sound. Qed.

Lemma x_exec_input_sound d l s inp l' s' r :
  x_exec_input d l s inp = Done (l', s', r) -> x_answers s inp s' r.
Proof. apply x_answers_sound, x_nested_sound. Qed.

(** ** Completeness *)

Definition x_extends (n1 n2 : x_nested) : Prop :=
  forall l s cmd x, n1 l s cmd = Done x -> n2 l s cmd = Done x.

Lemma x_run_extends n1 n2 R sid (p : prog W F R) (X : x_extends n1 n2) : forall l s c x,
  x_run n1 sid l s c p = Done x -> x_run n2 sid l s c p = Done x.
Proof.
  induction p as [r|y|t k IH|t k IH|e k IH|k IH|k IH|i nv k IH|k IH|w k IH|k IH|nme fs k IH
                 |nme k IH|k IH|lx k IH|cmd k IH]; intros l s c x H; cbn [ExecThrow.x_run] in *;
    destruct (ask l) as [[|] l1]; auto.
  - destruct (is_live s sid); auto.
  - destruct (x_add sg what l1 s nme fs) as [[[l2 s1] [u|y]]|]; cbn [bind] in *; auto.
  - destruct (remove sg s nme); cbn [bind] in *; auto.
  - destruct (n1 l1 s cmd) as [[[l2 s1] r]|] eqn:E; [|discriminate].
    rewrite (X _ _ _ _ E). cbn [bind] in *. auto.
Qed.

Lemma x_dispatch_extends n1 n2 (X : x_extends n1 n2) fs l s c y :
  x_dispatch code sg what n1 fs l s c = Done y -> x_dispatch code sg what n2 fs l s c = Done y.
Proof.
  induction fs as [|f fs IH]; simpl; [auto|].
  destruct (arity (code (snd f)) =? length (i_args (cc_input c))); [|apply IH].
  unfold x_invokeTrampoline.
  destruct (x_convert _ _ _ _ _) as [[l1 [es|x]]|]; cbn [bind]; [|auto|discriminate].
  unfold x_invoke. destruct (any_failed _ _); [auto|].
  destruct (take_values _ _) as [vs|]; cbn [bind]; [|discriminate].
  destruct (ExecThrow.x_run sg what n1 _ _ _ _ _) as [z|] eqn:P; [|discriminate].
  rewrite (x_run_extends _ _ _ _ _ X _ _ _ _ P). auto.
Qed.

Lemma x_input_extends n1 n2 (X : x_extends n1 n2) l s inp x :
  x_execute_input n1 l s inp = Done x -> x_execute_input n2 l s inp = Done x.
Proof.
  intros H. unfold ExecThrow.x_execute_input in *. destruct (ask l) as [[|] l0]; [exact H|].
  unfold ExecThrow.x_answer, ExecThrow.x_execute_ctx in *. simpl in *.
  destruct (i_name inp) as [|ch r]; [exact H|].
  destruct (get sg s (ch :: r)) as [[cmd|]|]; simpl in *; try exact H.
  destruct (x_dispatch code sg what n1 _ _ _ _) as [o|] eqn:E; [|discriminate].
  rewrite (x_dispatch_extends n1 n2 X _ _ _ _ _ E). exact H.
Qed.

Lemma x_text_extends n1 n2 (X : x_extends n1 n2) l s cmd x :
  x_execute_text n1 l s cmd = Done x -> x_execute_text n2 l s cmd = Done x.
Proof.
  unfold ExecThrow.x_execute_text. destruct (s_lexer s) as [lex|]; [|auto].
  destruct (ask l) as [[|] l1]; [auto|].
  destruct (lex cmd) as [[]|]; cbn [bind]; auto. now apply x_input_extends.
Qed.

Lemma x_nested_extends d : forall e, x_extends (x_nested_exec d) (x_nested_exec (d + e)).
Proof.
  induction d as [|d IH]; intros e l s cmd x H; [discriminate|]. simpl in *.
  eapply x_text_extends; [|exact H]. apply IH.
Qed.

Lemma x_exec_input_mono d d' l s inp x :
  d <= d' -> x_exec_input d l s inp = Done x -> x_exec_input d' l s inp = Done x.
Proof.
  intros L. replace d' with (d + (d' - d)) by lia. apply x_input_extends, x_nested_extends.
Qed.

Lemma x_exec_text_mono d d' l s cmd x :
  d <= d' -> x_exec_text d l s cmd = Done x -> x_exec_text d' l s cmd = Done x.
Proof.
  intros L. replace d' with (d + (d' - d)) by lia. apply x_text_extends, x_nested_extends.
Qed.

Lemma x_run_mono d d' R sid l s c (p : prog W F R) x :
  d <= d' -> x_run (x_nested_exec d) sid l s c p = Done x ->
  x_run (x_nested_exec d') sid l s c p = Done x.
Proof.
  intros L. replace d' with (d + (d' - d)) by lia. apply x_run_extends, x_nested_extends.
Qed.

Scheme x_runs_mut := Minimality for ExecThrowSpec.x_runs Sort Prop
  with attempts_mut := Minimality for ExecThrowSpec.attempts Sort Prop
  with x_answers_mut := Minimality for ExecThrowSpec.x_answers Sort Prop
  with x_executes_mut := Minimality for ExecThrowSpec.x_executes Sort Prop.
Combined Scheme x_exec_mut from x_runs_mut, attempts_mut, x_answers_mut, x_executes_mut.

Lemma late_room (s : state) name s' : late sg s name s' -> x_room sg s name = Done s'.
Proof.
  intros [[I L] (m & R & ->)]. unfold x_room. rewrite I. cbn [bind]. now rewrite L, R.
Qed.

Lemma add_room (s : state) name fs s' : add sg s name fs = Done s' -> exists s1, x_room sg s name = Done s1.
Proof.
  unfold add, insertOrAssign, x_room.
  destruct (findNodeIndex _ _ _ _) as [[i|]|]; cbn [bind]; [eauto| |discriminate].
  destruct (load_exceeds _ _); [|eauto].
  destruct (rehash _ _ _); cbn [bind]; [eauto|discriminate].
Qed.

Lemma x_convert_good ps : forall i pre args rest,
  length pre = i -> length args = length ps ->
  x_convert what ps i (repeat false (length ps) ++ rest) (pre ++ args) =
  Done (rest, inl (from_all ps args)).
Proof.
  induction ps as [|T ps IH]; intros i pre args rest Hi Hl; [reflexivity|].
  destruct args as [|v args]; [discriminate|]. cbn [x_convert].
  assert (A : at_ (pre ++ v :: args) i = Done v).
  { unfold at_. rewrite nth_error_app2 by lia. now replace (i - length pre) with 0 by lia. }
  rewrite A. cbn [bind length repeat app ask].
  specialize (IH (S i) (pre ++ [v]) args rest). rewrite <- app_assoc in IH. simpl in IH, Hl.
  rewrite IH; [reflexivity|rewrite app_length; simpl; lia|lia].
Qed.

Lemma x_convert_bad ps args rest :
  ps <> [] -> length args = length ps ->
  x_convert what ps 0 ([true] ++ rest) args = Done (rest, inr bad).
Proof. destruct ps, args; try easy. Qed.

Lemma x_report_failed_good ps : forall es rest n a evs nm,
  x_report_failed what ps (repeat false (length (errs_of ps es)) ++ rest) es (ctx_of n a evs nm) =
  (rest, ctx_of n a (evs ++ map Reported (errs_of ps es)) nm, inl tt).
Proof.
  induction ps as [|T ps IH]; intros es rest n a evs nm.
  { simpl. now rewrite app_nil_r. }
  cbn [x_report_failed errs_of]. destruct (fst es) as [x|e]; [apply IH|].
  cbn [length repeat app]. unfold x_report. cbn [ask]. rewrite ctx_report, IH, <- app_assoc.
  reflexivity.
Qed.

Lemma x_report_failed_some ps : forall es g e r rest n a evs nm,
  errs_of ps es = g ++ e :: r ->
  x_report_failed what ps (repeat false (length g) ++ true :: rest) es (ctx_of n a evs nm) =
  (rest, ctx_of n a (evs ++ map Reported g) nm, inr bad).
Proof.
  induction ps as [|T ps IH]; intros es g e r rest n a evs nm E; [destruct g; discriminate|].
  cbn [x_report_failed errs_of] in *. destruct (fst es) as [x|e1]; [now apply (IH _ _ e r)|].
  destruct g as [|e2 g]; injection E as -> E.
  - simpl. now rewrite app_nil_r.
  - cbn [length repeat app]. unfold x_report. cbn [ask].
    rewrite ctx_report, (IH _ g e r) by exact E. now rewrite <- app_assoc.
Qed.

Lemma x_text_good r rest v t : shows r v t ->
  exists l, x_text what r (l ++ rest) v = Done (rest, inl t).
Proof.
  intros S. pose proof (shows_rtext _ _ _ S) as T.
  destruct r as [|T0|T0|nm].
  - injection T as <-. now exists [].
  - exists [false]. cbn [x_text ask app]. now rewrite T.
  - exists [false]. cbn [x_text ask app]. now rewrite T.
  - exists [false]. cbn [x_text ask app]. now rewrite T.
Qed.

Definition x_text_luck (r : rtype) : luck := match r with RVoid => [] | _ => [false] end.

Lemma x_text_lucky r rest v t : shows r v t ->
  x_text what r (x_text_luck r ++ rest) v = Done (rest, inl t).
Proof.
  intros S. pose proof (shows_rtext _ _ _ S) as T.
  destruct r as [|T0|T0|nm]; [now injection T as <-| | |];
    cbn [x_text ask app x_text_luck]; now rewrite T.
Qed.

Lemma x_text_bad r rest v : r <> RVoid -> x_text what r (true :: rest) v = Done (rest, inr bad).
Proof. now destruct r. Qed.

(** The call context after an attempt. *)
Definition after (n : bytes) (a : list value) (evs : list event) (nm : list (bytes * value))
           (fin : option bytes + exn) : callctx * (unit + exn) :=
  match fin with
  | inl t => (CallCtx (Input n a nm)
               (Result no_input (errors_of evs)
                       (match errors_of evs with [] => t | _ => None end) (output_of evs)), inl tt)
  | inr x => (ctx_of n a evs nm, inr x)
  end.

Lemma x_invoke_good nested sid (f : functor W F) l s n a nm vs :
  converts (f_params f) a vs ->
  x_invoke sg what nested sid f l s (ctx_of n a [] nm) (from_all (f_params f) a) =
  (r <- x_run nested sid l s (ctx_of n a [] nm) (f_body f vs) ;;
    match r with
    | (l, s', c', inr x) => Done (l, s', c', inr x)
    | (l, s', c', inl v) =>
        o <- x_text what (f_result f) l v ;;
        match o with
        | (l, inr x) => Done (l, s', c', inr x)
        | (l, inl returnValue) =>
            Done (l, s', if cc_hasErrors c' then c' else cc_return c' returnValue, inl tt)
        end
    end).
Proof.
  intros C. apply converts_from_all in C. destruct C as [C1 C2]. unfold x_invoke.
  now rewrite any_failed_errs, C1, C2.
Qed.

Lemma x_complete_all :
  (forall R sid s evs nm p s' evs' nm' fin, x_runs R sid s evs nm p s' evs' nm' fin ->
     exists d l, forall n a rest,
       x_run (x_nested_exec d) sid (l ++ rest) s (ctx_of n a evs nm) p =
       Done (rest, s', ctx_of n a evs' nm', fin)) /\
  (forall s inp f s' evs nm fin, attempts s inp f s' evs nm fin ->
     length (i_args inp) = length (f_params (code (snd f))) ->
     exists d l, forall rest,
       x_invokeTrampoline code sg what (x_nested_exec d) f (l ++ rest) s
         (ctx_of (i_name inp) (i_args inp) [] (i_named inp)) =
       Done (rest, s', fst (after (i_name inp) (i_args inp) evs nm fin),
             snd (after (i_name inp) (i_args inp) evs nm fin))) /\
  (forall s inp s' r, x_answers s inp s' r ->
     exists d l, forall rest, x_exec_input d (l ++ rest) s inp = Done (rest, s', r)) /\
  (forall s cmd s' r, x_executes s cmd s' r ->
     exists d l, forall rest, x_exec_text d (l ++ rest) s cmd = Done (rest, s', r)).
Proof.
  assert (CL : forall fs n f, chosen code fs n f -> n = length (f_params (code (snd f)))).
  { intros fs n f (? & ? & _ & C & _). now symmetry. }
  apply (x_exec_mut W F code sg catching bad).
  - intros R sid s evs nm p. exists 0, [true]. intros n a rest. destruct p; reflexivity.
  - intros R sid s evs nm name fs k s' L. exists 0, [false; false; true]. intros n a rest.
    cbn [app ExecThrow.x_run ask]. unfold x_add. cbn [ask]. now rewrite (late_room _ _ _ L).
  - intros. exists 0, [false]. reflexivity.
  - intros. exists 0, [false]. reflexivity.
  - intros R sid s evs nm t k s' evs' nm' fin _ (d & l & H). exists d, (false :: l). intros n a rest.
    cbn [app ExecThrow.x_run ask]. now rewrite ctx_log.
  - intros R sid s evs nm t k s' evs' nm' fin _ (d & l & H). exists d, (false :: l). intros n a rest.
    cbn [app ExecThrow.x_run ask]. now rewrite ctx_logline.
  - intros R sid s evs nm e k s' evs' nm' fin _ (d & l & H). exists d, (false :: l). intros n a rest.
    cbn [app ExecThrow.x_run ask]. now rewrite ctx_report.
  - intros R sid s evs nm k b s' evs' nm' fin B _ (d & l & H). exists d, (false :: l). intros n a rest.
    cbn [app ExecThrow.x_run ask].
    apply has_error_errors in B. unfold cc_hasErrors. simpl. rewrite <- B. apply H.
  - intros R sid s evs nm k s' evs' nm' fin _ (d & l & H). exists d, (false :: l). intros n a rest.
    apply H.
  - intros R sid s evs nm i nv nm1 k s' evs' nm' fin Q _ (d & l & H). exists d, (false :: l).
    intros n a rest. cbn [app ExecThrow.x_run ask].
    rewrite ctx_put. rewrite (replaced_det _ _ _ _ Q) in H. apply H.
  - intros R sid s evs nm k s' evs' nm' fin _ (d & l & H). exists d, (false :: l). intros n a rest.
    apply H.
  - intros R sid l m n0 w0 evs nm w k s' evs' nm' fin _ (d & l0 & H). exists d, (false :: l0).
    intros n a rest. apply H.
  - intros R sid s evs nm k s' evs' nm' fin S _ (d & l & H). exists d, (false :: l). intros n a rest.
    cbn [app ExecThrow.x_run ask]. apply is_live_stored in S. rewrite S. apply H.
  - intros R sid s evs nm name fs k s1 s' evs' nm' fin A _ (d & l & H).
    exists d, (false :: false :: false :: l). intros n a rest.
    cbn [app ExecThrow.x_run ask]. unfold x_add. cbn [ask].
    destruct (add_room _ _ _ _ A) as (s2 & ->). cbn [bind]. rewrite A. apply H.
  - intros R sid s evs nm name k s1 s' evs' nm' fin A _ (d & l & H). exists d, (false :: l).
    intros n a rest. cbn [app ExecThrow.x_run ask]. rewrite A. apply H.
  - intros R sid s evs nm k s' evs' nm' fin _ (d & l & H). exists d, (false :: l). intros n a rest.
    apply H.
  - intros R sid l0 m n0 w evs nm l k s' evs' nm' fin _ (d & l1 & H). exists d, (false :: l1).
    intros n a rest. apply H.
  - intros R sid s evs nm cmd k s1 r s' evs' nm' fin _ (d1 & l1 & H1) _ (d2 & l2 & H2).
    exists (S d1 + d2), (false :: l1 ++ l2). intros n a rest.
    cbn [app ExecThrow.x_run ask]. rewrite <- app_assoc.
    assert (E : x_nested_exec (S d1 + d2) (l1 ++ l2 ++ rest) s cmd = Done (l2 ++ rest, s1, r)).
    { apply (x_exec_text_mono d1 (d1 + d2)); [lia|apply H1]. }
    rewrite E. cbn [bind]. apply (x_run_mono d2 (S d1 + d2)); [lia|]. apply H2.
  - (* at_unconverted *)
    intros s inp f P L. exists 0, [true]. intros rest. unfold x_invokeTrampoline.
    cbn [cc_input ctx_of i_args].
    rewrite (x_convert_bad (f_params (code (snd f))) (i_args inp) rest P L). reflexivity.
  - (* at_errors *)
    intros s inp f es CE NE L. pose proof (conversion_errors_det _ _ _ CE) as D.
    exists 0, (repeat false (length (f_params (code (snd f)))) ++ repeat false (length es)).
    intros rest. unfold x_invokeTrampoline. cbn [cc_input ctx_of i_args]. rewrite <- app_assoc.
    pose proof (x_convert_good (f_params (code (snd f))) 0 [] (i_args inp)
                  (repeat false (length es) ++ rest) eq_refl L) as C.
    cbn [app] in C. rewrite C. cbn [bind]. unfold x_invoke. rewrite any_failed_errs.
    pose proof (x_report_failed_good (f_params (code (snd f)))
                  (from_all (f_params (code (snd f))) (i_args inp)) rest (i_name inp) (i_args inp)
                  [] (i_named inp)) as R.
    rewrite <- D in *.
    assert (NN : match es with [] => false | _ => true end = true) by now destruct es.
    rewrite NN, R. cbn [after fst snd]. rewrite errors_reported, output_reported.
    unfold ctx_of. cbn [app]. rewrite errors_reported, output_reported. now destruct es.
  - (* at_some_errors *)
    intros s inp f es e es' CE L. pose proof (conversion_errors_det _ _ _ CE) as D. symmetry in D.
    exists 0, (repeat false (length (f_params (code (snd f)))) ++ repeat false (length es) ++ [true]).
    intros rest. unfold x_invokeTrampoline. cbn [cc_input ctx_of i_args]. rewrite <- !app_assoc.
    pose proof (x_convert_good (f_params (code (snd f))) 0 [] (i_args inp)
                  (repeat false (length es) ++ [true] ++ rest) eq_refl L) as C.
    cbn [app] in C. cbn [app]. rewrite C. cbn [bind]. unfold x_invoke.
    rewrite any_failed_errs, D.
    assert (NN : match es ++ e :: es' with [] => false | _ => true end = true) by now destruct es.
    rewrite NN, (x_report_failed_some _ _ es e es') by exact D. reflexivity.
  - (* at_returns *)
    intros s inp f vs s' evs nm v t V _ (d & l & H) T L.
    exists d, (repeat false (length (f_params (code (snd f)))) ++ l ++
               x_text_luck (f_result (code (snd f)))).
    intros rest. unfold x_invokeTrampoline. cbn [cc_input ctx_of i_args]. rewrite <- !app_assoc.
    pose proof (x_convert_good (f_params (code (snd f))) 0 [] (i_args inp)
                  (l ++ x_text_luck (f_result (code (snd f))) ++ rest) eq_refl L) as C.
    cbn [app] in C. rewrite C. cbn [bind].
    change (CallCtx (Input (i_name inp) (i_args inp) (i_named inp))
             (Result no_input (errors_of []) None (output_of [])))
      with (ctx_of (i_name inp) (i_args inp) [] (i_named inp)).
    rewrite (x_invoke_good _ _ _ _ _ _ _ _ vs V), H. cbn [bind].
    rewrite (x_text_lucky _ _ _ _ T). cbn [bind after fst snd]. unfold cc_hasErrors. simpl.
    destruct (errors_of evs) eqn:Z; unfold cc_return, ctx_of; simpl; now rewrite Z.
  - (* at_unprinted *)
    intros s inp f vs s' evs nm v V _ (d & l & H) T L.
    exists d, (repeat false (length (f_params (code (snd f)))) ++ l ++ [true]).
    intros rest. unfold x_invokeTrampoline. cbn [cc_input ctx_of i_args]. rewrite <- !app_assoc.
    pose proof (x_convert_good (f_params (code (snd f))) 0 [] (i_args inp)
                  (l ++ [true] ++ rest) eq_refl L) as C.
    cbn [app] in C. cbn [app]. rewrite C. cbn [bind].
    change (CallCtx (Input (i_name inp) (i_args inp) (i_named inp))
             (Result no_input (errors_of []) None (output_of [])))
      with (ctx_of (i_name inp) (i_args inp) [] (i_named inp)).
    rewrite (x_invoke_good _ _ _ _ _ _ _ _ vs V), H. cbn [bind].
    now rewrite (x_text_bad _ _ _ T).
  - (* at_throws *)
    intros s inp f vs s' evs nm x V _ (d & l & H) L.
    exists d, (repeat false (length (f_params (code (snd f)))) ++ l).
    intros rest. unfold x_invokeTrampoline. cbn [cc_input ctx_of i_args]. rewrite <- !app_assoc.
    pose proof (x_convert_good (f_params (code (snd f))) 0 [] (i_args inp)
                  (l ++ rest) eq_refl L) as C.
    cbn [app] in C. rewrite C. cbn [bind].
    change (CallCtx (Input (i_name inp) (i_args inp) (i_named inp))
             (Result no_input (errors_of []) None (output_of [])))
      with (ctx_of (i_name inp) (i_args inp) [] (i_named inp)).
    rewrite (x_invoke_good _ _ _ _ _ _ _ _ vs V), H. reflexivity.
  - intros s inp. exists 0, [true]. reflexivity.
  - intros s inp E. exists 0, [false; false]. intros rest. unfold ExecThrow.x_exec_input, ExecThrow.x_execute_input.
    cbn [app ask]. now rewrite x_input_unnamed.
  - intros s inp msg E G (sh & B & ->). exists 0, [false; false]. intros rest.
    unfold ExecThrow.x_exec_input, ExecThrow.x_execute_input. cbn [app ask]. now rewrite (before_nul_det _ _ B), x_input_unknown.
  - intros s inp cmd msg E G N (sh & li & n & B & L & C & ->). exists 0, [false; false]. intros rest.
    unfold ExecThrow.x_exec_input, ExecThrow.x_execute_input. cbn [app ask].
    rewrite (x_input_arity _ _ s inp cmd E G N). cbn [ask].
    repeat f_equal.
    apply enumeration_det in L. subst li. rewrite (before_nul_det _ _ B), (canonical_zu _ _ C).
    unfold wrongArityError. now rewrite expected_loop_text, (c_str_no_nul (enum_text _)) by apply enum_text_no_nul.
  - intros s inp cmd f s' evs nm t E G C _ H. destruct (H (CL _ _ _ C)) as (d & l & H1).
    exists d, (false :: l). intros rest. unfold ExecThrow.x_exec_input, ExecThrow.x_execute_input. cbn [app ask].
    rewrite (x_input_chosen _ _ s inp cmd f E G C), H1. reflexivity.
  - intros s inp cmd f s' evs nm x msg E G C _ H K X. destruct (H (CL _ _ _ C)) as (d & l & H1).
    exists d, (false :: l ++ [false]). intros rest. unfold ExecThrow.x_exec_input, ExecThrow.x_execute_input. cbn [app ask].
    rewrite (x_input_chosen _ _ s inp cmd f E G C), <- app_assoc, H1, K.
    rewrite (exn_text_det _ _ X). reflexivity.
  - intros s inp cmd f s' evs nm x E G C _ H K. destruct (H (CL _ _ _ C)) as (d & l & H1).
    exists d, (false :: l ++ [true]). intros rest. unfold ExecThrow.x_exec_input, ExecThrow.x_execute_input. cbn [app ask].
    rewrite (x_input_chosen _ _ s inp cmd f E G C), <- app_assoc, H1, K. reflexivity.
  - intros s inp cmd f s' evs nm x E G C _ H K. destruct (H (CL _ _ _ C)) as (d & l & H1).
    exists d, (false :: l). intros rest. unfold ExecThrow.x_exec_input, ExecThrow.x_execute_input. cbn [app ask].
    rewrite (x_input_chosen _ _ s inp cmd f E G C), H1, K. reflexivity.
  - intros s cmd lex L. exists 0, [true]. intros rest.
    unfold ExecThrow.x_exec_text, ExecThrow.x_execute_text. now rewrite L.
  - intros s cmd lex e L P. exists 0, [false; false]. intros rest.
    unfold ExecThrow.x_exec_text, ExecThrow.x_execute_text. rewrite L. cbn [app ask].
    rewrite P. reflexivity.
  - intros s cmd lex inp s' r L P _ (d & l & H). exists d, (false :: l). intros rest.
    unfold ExecThrow.x_exec_text, ExecThrow.x_execute_text. rewrite L. cbn [app ask].
    rewrite P. apply H.
Qed.
End Agree.
