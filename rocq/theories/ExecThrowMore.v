(** Consequences of [ExecThrow.v]: enough memory, faults, handlers that do not execute
    commands. *)
From Coq Require Import Ascii String NArith ZArith Bool PeanoNat Lia List.
From Verif Require Import Util Base StringConvSpec SerializerSpec StringConvProofs SerializerProofs
  Serializer Lexer UMap Exec ExecSpec ExecProofs ExecMore ExecKinds ExecThrow ExecThrowSpec
  ExecThrowProofs.
Import ListNotations.
Local Notation length := List.length.

Ltac cases p IH :=
  induction p as [r|x|t p IH|t p IH|e p IH|p IH|p IH|i nv p IH|p IH|w p IH|p IH|nme fs p IH
                 |nme p IH|p IH|lx p IH|cmd p IH].

(** No operation fails. *)
Definition lucky (l : luck) : Prop := forall b, In b l -> b = false.

Lemma lucky_ask l : lucky l -> exists l', ask l = (false, l') /\ lucky l'.
Proof.
  destruct l as [|b l]; intros L; [exists []; split; [reflexivity|exact L]|].
  exists l. rewrite (L b (or_introl eq_refl)). split; [reflexivity|].
  intros c I. apply L. now right.
Qed.

Section More.
Context {W F : Type}.
Variable code : F -> functor W F.
Variable sg catching : bool.
Variable what : bytes.

Local Notation state := (state W F).
Local Notation bad := (bad what).
Local Notation x_nested := (@x_nested W F).
Local Notation x_run := (x_run sg what).
Local Notation x_exec_text := (x_exec_text code sg catching what).
Local Notation x_exec_input := (x_exec_input code sg catching what).
Local Notation exec_text := (exec_text code sg catching).
Local Notation exec_input := (exec_input code sg catching).

(** ** Enough memory *)

Definition same {A B} (drop : A -> luck * B) (x : outcome A) (y : outcome B) : Prop :=
  match x with
  | Done a => lucky (fst (drop a)) /\ y = Done (snd (drop a))
  | Fault f => y = Fault f
  end.
Definition drop2 {B C : Type} (a : luck * B * C) : luck * (B * C) :=
  let '(l, b, c) := a in (l, (b, c)).
Definition drop3 {B C D : Type} (a : luck * B * C * D) : luck * (B * C * D) :=
  let '(l, b, c, d) := a in (l, (b, c, d)).

Definition same_nested (nx : x_nested) (n : nested_call W F) : Prop :=
  forall l s cmd, lucky l -> same drop2 (nx l s cmd) (n s cmd).

Lemma room_fault (s : state) name fs f :
  x_room sg s name = Fault f -> add sg s name fs = Fault f.
Proof.
  unfold add, insertOrAssign, x_room.
  destruct (findNodeIndex _ _ _ _) as [[i|]|]; cbn [bind]; intros H; [discriminate| |now inversion H].
  destruct (load_exceeds _ _); [|discriminate].
  destruct (rehash _ _ _); cbn [bind] in *; [discriminate|now inversion H].
Qed.

Lemma x_run_lucky nx n (N : same_nested nx n) R sid (p : prog W F R) : forall l s c,
  lucky l -> same drop3 (x_run nx sid l s c p) (run_prog sg n sid s c p).
Proof.
  cases p IH; intros l s c L; cbn [ExecThrow.x_run run_prog];
    destruct (lucky_ask l L) as (l1 & -> & L1); auto; try (split; [exact L1|reflexivity]).
  - destruct (is_live s sid); [auto|reflexivity].
  - unfold x_add. destruct (lucky_ask l1 L1) as (l2 & -> & L2).
    destruct (x_room sg s nme) as [s1|f] eqn:X; cbn [bind].
    + destruct (lucky_ask l2 L2) as (l3 & -> & L3).
      destruct (add sg s nme fs); cbn [bind]; [auto|reflexivity].
    + now rewrite (room_fault _ _ fs _ X).
  - destruct (remove sg s nme); cbn [bind]; [auto|reflexivity].
  - pose proof (N l1 s cmd L1) as M. unfold same in M.
    destruct (nx l1 s cmd) as [[[l2 s2] r]|f]; cbn [drop2 fst snd] in M.
    + destruct M as [L2 ->]. cbn [bind]. apply IH. exact L2.
    + now rewrite M.
Qed.

Lemma x_convert_lucky ps : forall i l args, lucky l ->
  match x_convert what ps i l args with
  | Done (l', inl es) => lucky l' /\ convert ps i args = Done es
  | Done (_, inr _) => False
  | Fault f => convert ps i args = Fault f
  end.
Proof.
  induction ps as [|T ps IH]; intros i l args L; [split; [exact L|reflexivity]|].
  cbn [x_convert convert]. destruct (at_ args i) as [v|f]; cbn [bind]; [|reflexivity].
  destruct (lucky_ask l L) as (l1 & -> & L1). specialize (IH (S i) l1 args L1).
  destruct (x_convert what ps (S i) l1 args) as [[l2 [es|x]]|f]; cbn [bind]; [|easy|now rewrite IH].
  destruct IH as [L2 ->]. cbn [bind]. auto.
Qed.

Lemma x_report_failed_lucky ps : forall l es c, lucky l ->
  exists l', lucky l' /\ x_report_failed what ps l es c = (l', report_failed ps es c, inl tt).
Proof.
  induction ps as [|T ps IH]; intros l es c L; [exists l; auto|].
  cbn [x_report_failed report_failed]. destruct (fst es) as [x|e]; [now apply IH|].
  unfold x_report. destruct (lucky_ask l L) as (l1 & -> & L1). now apply IH.
Qed.

Lemma x_text_lucky' r l v : lucky l ->
  match x_text what r l v with
  | Done (l', inl t) => lucky l' /\ rtext r v = Done t
  | Done (_, inr _) => False
  | Fault f => rtext r v = Fault f
  end.
Proof.
  intros L. destruct (lucky_ask l L) as (l1 & E & L1).
  destruct r as [|T|T|nm]; cbn [x_text]; [split; [exact L|reflexivity]| | |]; rewrite E;
    match goal with |- context [rtext ?q v] => destruct (rtext q v) end; cbn [bind]; auto.
Qed.

Lemma x_trampoline_lucky nx n (N : same_nested nx n) f l s c : lucky l ->
  same drop3 (x_invokeTrampoline code sg what nx f l s c) (invokeTrampoline code sg n f s c).
Proof.
  intros L. unfold x_invokeTrampoline, invokeTrampoline.
  pose proof (x_convert_lucky (f_params (code (snd f))) 0 l (i_args (cc_input c)) L) as C.
  destruct (x_convert _ _ _ _ _) as [[l1 [es|x]]|ft]; cbn [bind]; [|easy|now rewrite C].
  destruct C as [L1 ->]. cbn [bind]. unfold x_invoke, invoke.
  destruct (any_failed _ es).
  { destruct (x_report_failed_lucky (f_params (code (snd f))) l1 es c L1) as (l2 & L2 & ->).
    split; [exact L2|reflexivity]. }
  destruct (take_values _ es) as [vs|ft]; cbn [bind]; [|reflexivity].
  pose proof (x_run_lucky nx n N _ (fst f) (f_body (code (snd f)) vs) l1 s c L1) as P.
  unfold same in P.
  destruct (ExecThrow.x_run sg what nx (fst f) l1 s c (f_body (code (snd f)) vs))
    as [[[[l2 s1] c1] fin]|ft]; cbn [bind drop3 fst snd] in *; [|now rewrite P].
  destruct P as [L2 ->]. cbn [bind]. destruct fin as [v|x]; [|split; [exact L2|reflexivity]].
  pose proof (x_text_lucky' (f_result (code (snd f))) l2 v L2) as T.
  destruct (x_text _ _ _ _) as [[l3 [t|x]]|ft]; cbn [bind]; [|easy|now rewrite T].
  destruct T as [L3 ->]. split; [exact L3|reflexivity].
Qed.

Lemma x_dispatch_lucky nx n (N : same_nested nx n) fs l s c : lucky l ->
  match x_dispatch code sg what nx fs l s c with
  | Done None => dispatch code sg n fs s c = Done None
  | Done (Some x) => lucky (fst (drop3 x)) /\ dispatch code sg n fs s c = Done (Some (snd (drop3 x)))
  | Fault f => dispatch code sg n fs s c = Fault f
  end.
Proof.
  intros L. induction fs as [|f fs IH]; [reflexivity|]. cbn [x_dispatch dispatch].
  destruct (arity (code (snd f)) =? length (i_args (cc_input c))); [|exact IH].
  pose proof (x_trampoline_lucky nx n N f l s c L) as T. unfold same in T.
  destruct (x_invokeTrampoline _ _ _ _ _ _ _ _) as [x|ft]; cbn [bind]; [|now rewrite T].
  destruct T as [L1 ->]. auto.
Qed.

Lemma x_input_lucky nx n (N : same_nested nx n) l s inp : lucky l ->
  same drop2 (x_execute_input code sg catching what nx l s inp)
             (execute_input code sg catching n s inp).
Proof.
  intros L. unfold x_execute_input. destruct (lucky_ask l L) as (l0 & -> & L0). clear L.
  rename L0 into L. clear l. rename l0 into l.
  unfold x_answer, execute_input, x_execute_ctx, execute_ctx, x_report.
  cbn [cc_input]. destruct (i_name inp) as [|ch nr].
  { destruct (lucky_ask l L) as (l1 & -> & L1). split; [exact L1|reflexivity]. }
  destruct (get sg s (ch :: nr)) as [[cmd|]|f]; cbn [bind]; [| |reflexivity].
  2:{ destruct (lucky_ask l L) as (l1 & -> & L1). split; [exact L1|reflexivity]. }
  pose proof (x_dispatch_lucky nx n N (c_functors cmd) l s (CallCtx inp empty_result) L) as D.
  destruct (x_dispatch _ _ _ _ _ _ _ _) as [[[[[l1 s1] c1] [[]|x]]|]|ft]; cbn [bind drop3 fst snd] in *.
  - destruct D as [L1 ->]. split; [exact L1|reflexivity].
  - destruct D as [L1 ->]. cbn [bind]. destruct catching.
    + destruct x; destruct (lucky_ask l1 L1) as (l2 & -> & L2); (split; [exact L2|reflexivity]).
    + split; [exact L1|reflexivity].
  - rewrite D. cbn [bind]. destruct (lucky_ask l L) as (l1 & -> & L1).
    split; [exact L1|reflexivity].
  - now rewrite D.
Qed.

Lemma x_text_lucky_ nx n (N : same_nested nx n) l s cmd : lucky l ->
  same drop2 (x_execute_text code sg catching what nx l s cmd)
             (execute_text code sg catching n s cmd).
Proof.
  intros L. unfold x_execute_text, execute_text.
  destruct (s_lexer s) as [lex|]; [|reflexivity].
  destruct (lucky_ask l L) as (l1 & -> & L1).
  destruct (lex cmd) as [[inp|e]|f]; cbn [bind]; [now apply x_input_lucky| |reflexivity].
  destruct (lucky_ask l1 L1) as (l2 & -> & L2). split; [exact L2|reflexivity].
Qed.

Lemma nested_lucky d :
  same_nested (x_nested_exec code sg catching what d) (nested_exec code sg catching d).
Proof.
  induction d as [|d IH]; intros l s cmd L; [reflexivity|]. now apply x_text_lucky_.
Qed.

(** ** Handlers that do not execute commands *)

Lemma x_run_fault nx R sid (p : prog W F R) : only no_nesting p -> forall n l s c f,
  x_run nx sid l s c p = Fault f -> run_prog sg n sid s c p = Fault f.
Proof.
  cases p IH; intros O n l s c f H; simpl in O; try (destruct O as [O1 O2]); try discriminate;
    cbn [ExecThrow.x_run run_prog] in *; destruct (ask l) as [[|] l1]; try discriminate; eauto.
  - destruct (is_live s sid); eauto. now inversion H.
  - unfold x_add in H. destruct (ask l1) as [[|] l2]; [discriminate|].
    destruct (x_room sg s nme) as [s1|g] eqn:X; cbn [bind] in H.
    + destruct (ask l2) as [[|] l3]; [discriminate|].
      destruct (add sg s nme fs); cbn [bind] in *; [eauto|now inversion H].
    + rewrite (room_fault _ _ fs _ X). now inversion H.
  - destruct (remove sg s nme); cbn [bind] in *; [eauto|now inversion H].
Qed.

Lemma x_convert_fault ps : forall i l args f,
  x_convert what ps i l args = Fault f -> convert ps i args = Fault f.
Proof.
  induction ps as [|T ps IH]; intros i l args f H; [discriminate|].
  cbn [x_convert convert] in *. destruct (at_ args i) as [v|g]; cbn [bind] in *; [|now inversion H].
  destruct (ask l) as [[|] l1]; [discriminate|].
  destruct (x_convert what ps (S i) l1 args) as [[l2 [es|x]]|g] eqn:C; cbn [bind] in H;
    try discriminate. rewrite (IH _ _ _ _ C). now inversion H.
Qed.

Lemma x_convert_value ps : forall i l args l' es,
  x_convert what ps i l args = Done (l', inl es) -> convert ps i args = Done es.
Proof.
  induction ps as [|T ps IH]; intros i l args l' es H; cbn [x_convert convert] in *.
  { now inversion H. }
  destruct (at_ args i) as [v|g]; cbn [bind] in *; [|discriminate].
  destruct (ask l) as [[|] l1]; [discriminate|].
  destruct (x_convert what ps (S i) l1 args) as [[l2 [es1|x]]|g] eqn:C; cbn [bind] in H;
    try discriminate. rewrite (IH _ _ _ _ _ C). cbn [bind]. now inversion H.
Qed.

Lemma x_text_cases r l v :
  match x_text what r l v with
  | Done (l', inl t) => rtext r v = Done t
  | Done (_, inr x) => x = bad
  | Fault f => rtext r v = Fault f
  end.
Proof.
  destruct r as [|T|T|nm]; cbn [x_text]; [reflexivity| | |];
    (destruct (ask l) as [[|] l1]; [reflexivity|]);
    match goal with |- context [rtext ?q v] => destruct (rtext q v) end; cbn [bind]; auto.
Qed.

Lemma x_trampoline_fault nx n f l s c ft :
  (forall vs, only no_nesting (f_body (code (snd f)) vs)) ->
  x_invokeTrampoline code sg what nx f l s c = Fault ft ->
  invokeTrampoline code sg n f s c = Fault ft.
Proof.
  intros O H. unfold x_invokeTrampoline, invokeTrampoline in *.
  destruct (x_convert _ _ _ _ _) as [[l1 [es|x]]|g] eqn:C; cbn [bind] in H; [|discriminate|].
  2:{ rewrite (x_convert_fault _ _ _ _ _ C). now inversion H. }
  rewrite (x_convert_value _ _ _ _ _ _ C). cbn [bind]. unfold x_invoke, invoke in *.
  destruct (any_failed _ es).
  { destruct (x_report_failed _ _ _ _ _) as [[? ?] ?]. discriminate. }
  destruct (take_values _ es) as [vs|g]; cbn [bind] in *; [|now inversion H].
  destruct (ExecThrow.x_run sg what nx (fst f) l1 s c (f_body (code (snd f)) vs))
    as [[[[l2 s1] c1] fin]|g] eqn:P; cbn [bind] in H.
  2:{ rewrite (x_run_fault nx _ _ _ (O vs) n _ _ _ _ P). now inversion H. }
  destruct fin as [v|x]; [|discriminate].
  pose proof (x_text_cases (f_result (code (snd f))) l2 v) as T.
  destruct (x_text _ _ _ _) as [[l3 [t|x]]|g]; cbn [bind] in H; try discriminate.
  injection H as <-. revert P. clear - O T.
  (* a run that did not fail to allocate is the normal run *)
  intros P. assert (Q : run_prog sg n (fst f) s c (f_body (code (snd f)) vs) = Done (s1, c1, inl v)).
  { revert P. generalize (O vs). generalize (f_body (code (snd f)) vs). clear O. intros p.
    revert l1 s c. cases p IH; intros l s c O P; simpl in O; try (destruct O as [O1 O2]);
      try discriminate; cbn [ExecThrow.x_run run_prog] in *; destruct (ask l) as [[|] l4];
      try discriminate; eauto.
    - now inversion P.
    - destruct (is_live s (fst f)); [eauto|discriminate].
    - unfold x_add in P. destruct (ask l4) as [[|] l5]; [discriminate|].
      destruct (x_room sg s nme); cbn [bind] in P; [|discriminate].
      destruct (ask l5) as [[|] l6]; [discriminate|].
      destruct (add sg s nme fs); cbn [bind] in *; [eauto|discriminate].
    - destruct (remove sg s nme); cbn [bind] in *; [eauto|discriminate]. }
  rewrite Q. cbn [bind]. now rewrite T.
Qed.

Lemma x_dispatch_fault nx n fs l s c ft :
  (forall f vs, only no_nesting (f_body (code f) vs)) ->
  x_dispatch code sg what nx fs l s c = Fault ft -> dispatch code sg n fs s c = Fault ft.
Proof.
  intros O. induction fs as [|f fs IH]; cbn [x_dispatch dispatch]; [discriminate|].
  destruct (arity (code (snd f)) =? length (i_args (cc_input c))); [|exact IH].
  destruct (x_invokeTrampoline _ _ _ _ _ _ _ _) as [x|g] eqn:T; cbn [bind]; [discriminate|].
  intros [= <-]. now rewrite (x_trampoline_fault nx n _ _ _ _ _ (O (snd f)) T).
Qed.

Lemma x_dispatch_none_iff nx n fs l s c :
  x_dispatch code sg what nx fs l s c = Done None -> dispatch code sg n fs s c = Done None.
Proof.
  induction fs as [|f fs IH]; cbn [x_dispatch dispatch]; [reflexivity|].
  destruct (arity (code (snd f)) =? length (i_args (cc_input c))); [|exact IH].
  destruct (x_invokeTrampoline _ _ _ _ _ _ _ _); discriminate.
Qed.

Lemma x_input_fault nx n l s inp ft :
  (forall f vs, only no_nesting (f_body (code f) vs)) ->
  x_execute_input code sg catching what nx l s inp = Fault ft ->
  execute_input code sg catching n s inp = Fault ft.
Proof.
  intros O H. unfold x_execute_input in H. destruct (ask l) as [[|] l0]; [discriminate|].
  clear l. rename l0 into l.
  unfold x_answer, execute_input, x_execute_ctx, execute_ctx, x_report in *.
  cbn [cc_input] in *. destruct (i_name inp) as [|ch nr].
  { destruct (ask l) as [[|] l1]; discriminate. }
  destruct (get sg s (ch :: nr)) as [[cmd|]|f]; cbn [bind] in *; [| |now inversion H].
  2:{ destruct (ask l) as [[|] l1]; discriminate. }
  destruct (x_dispatch code sg what nx _ _ _ _) as [[[[[l1 s1] c1] [[]|x]]|]|g] eqn:D;
    cbn [bind] in H; try discriminate.
  - destruct catching; [|discriminate].
    destruct x; destruct (ask l1) as [[|] l2]; discriminate.
  - destruct (ask l) as [[|] l2]; discriminate.
  - rewrite (x_dispatch_fault nx n _ _ _ _ _ O D). now inversion H.
Qed.

(** A run is the normal run, or it was stopped: then what it wrote is a beginning of what the
    normal run writes. *)
Lemma run_grows n R nm0 a0 sid (p : prog W F R) : forall s evs nm s' c' fin,
  only no_nesting p ->
  run_prog sg n sid s (ctx_of nm0 a0 evs nm) p = Done (s', c', fin) ->
  exists more nm', c' = ctx_of nm0 a0 (evs ++ more) nm'.
Proof.
  cases p IH; intros s evs nm s' c' fin O H; simpl in O; try (destruct O as [O1 O2]);
    try discriminate; cbn [run_prog] in H.
  - injection H as <- <- <-. exists [], nm. now rewrite app_nil_r.
  - injection H as <- <- <-. exists [], nm. now rewrite app_nil_r.
  - rewrite ctx_log in H. apply IH in H; [|exact O2]. destruct H as (m & nm' & ->).
    exists ([Logged t] ++ m), nm'. now rewrite app_assoc.
  - rewrite ctx_logline in H. apply IH in H; [|exact O2]. destruct H as (m & nm' & ->).
    exists ([LoggedLine t] ++ m), nm'. now rewrite app_assoc.
  - rewrite ctx_report in H. apply IH in H; [|exact O2]. destruct H as (m & nm' & ->).
    exists ([Reported e] ++ m), nm'. now rewrite app_assoc.
  - eauto.
  - eauto.
  - rewrite ctx_put in H. eauto.
  - eauto.
  - eauto.
  - destruct (is_live s sid); [eauto|discriminate].
  - destruct (add sg s nme fs); cbn [bind] in H; [eauto|discriminate].
  - destruct (remove sg s nme); cbn [bind] in H; [eauto|discriminate].
  - eauto.
  - eauto.
Qed.

Definition stopped nm0 a0 (c' : callctx) {A} (normal : outcome (state * callctx * A)) : Prop :=
  exists evs' nm', c' = ctx_of nm0 a0 evs' nm' /\
    forall s2 c2 fin2, normal = Done (s2, c2, fin2) ->
      exists more nm2, cc_input c2 = Input nm0 a0 nm2 /\
        r_errors (cc_result c2) = errors_of (evs' ++ more) /\
        r_output (cc_result c2) = output_of (evs' ++ more).

Lemma x_run_prefix nx n R nm0 a0 sid (p : prog W F R) : forall l s evs nm l' s' c' fin,
  only no_nesting p ->
  x_run nx sid l s (ctx_of nm0 a0 evs nm) p = Done (l', s', c', fin) ->
  run_prog sg n sid s (ctx_of nm0 a0 evs nm) p = Done (s', c', fin) \/
  (fin = inr bad /\ stopped nm0 a0 c' (run_prog sg n sid s (ctx_of nm0 a0 evs nm) p)).
Proof.
  assert (ST : forall q s evs nm, only no_nesting q ->
            stopped nm0 a0 (ctx_of nm0 a0 evs nm) (run_prog (R := R) sg n sid s (ctx_of nm0 a0 evs nm) q)).
  { intros q s evs nm O. exists evs, nm. split; [reflexivity|]. intros s2 c2 fin2 H.
    apply run_grows in H; [|exact O]. destruct H as (m & nm2 & ->). exists m, nm2. auto. }
  cases p IH; intros l s evs nm l' s' c' fin O H; pose proof O as O'; simpl in O;
    try (destruct O as [O1 O2]); try discriminate; cbn [ExecThrow.x_run] in H;
    destruct (ask l) as [[|] l1];
    try (injection H as <- <- <- <-; right; split; [reflexivity|now apply ST]; fail);
    cbn [run_prog].
  - injection H as <- <- <- <-. now left.
  - injection H as <- <- <- <-. now left.
  - rewrite ctx_log in *. eauto.
  - rewrite ctx_logline in *. eauto.
  - rewrite ctx_report in *. eauto.
  - eauto.
  - eauto.
  - rewrite ctx_put in *. eauto.
  - eauto.
  - eauto.
  - destruct (is_live s sid); [eauto|discriminate].
  - destruct (x_add sg what l1 s nme fs) as [[[l2 s1] o]|] eqn:A; [|discriminate]. cbn [bind] in H.
    apply x_add_sound in A. destruct A as [[-> A]|[-> A]].
    + injection H as <- <- <- <-. right. split; [reflexivity|].
      apply (ST (DoAdd nme fs p)). exact O'.
    + rewrite A. cbn [bind]. eauto.
  - destruct (remove sg s nme); cbn [bind] in *; [eauto|discriminate].
  - eauto.
  - eauto.
Qed.

Lemma report_failed_ctx ps es n a nm :
  report_failed ps es (ctx_of n a [] nm) = ctx_of n a (map Reported (errs_of ps es)) nm.
Proof. now rewrite report_failed_errs, fold_report. Qed.

Lemma trampoline_keeps n f s nm0 a0 nm s2 c2 o2 :
  (forall vs, only no_nesting (f_body (code (snd f)) vs)) ->
  invokeTrampoline code sg n f s (ctx_of nm0 a0 [] nm) = Done (s2, c2, o2) ->
  exists evs nm2, cc_input c2 = Input nm0 a0 nm2 /\
    r_errors (cc_result c2) = errors_of evs /\ r_output (cc_result c2) = output_of evs.
Proof.
  intros O H. unfold invokeTrampoline in H. destruct (convert _ _ _) as [es|]; cbn [bind] in H; [|discriminate].
  unfold invoke in H. destruct (any_failed _ es).
  { injection H as <- <- <-. rewrite report_failed_ctx. do 2 eexists. repeat split. }
  destruct (take_values _ es) as [vs|]; cbn [bind] in H; [|discriminate].
  destruct (run_prog sg n _ _ _ _) as [[[s1 c1] [v|x]]|] eqn:P; cbn [bind] in H; [| |discriminate].
  - destruct (rtext _ v) as [t|]; cbn [bind] in H; [|discriminate].
    apply run_grows in P; [|apply O]. destruct P as (m & nm' & ->).
    injection H as <- <- <-. exists m, nm'.
    destruct (cc_hasErrors _); repeat split.
  - apply run_grows in P; [|apply O]. destruct P as (m & nm' & ->).
    injection H as <- <- <-. exists m, nm'. repeat split.
Qed.

Lemma x_trampoline_prefix nx n f l s nm0 a0 nm l' s' c' o :
  (forall vs, only no_nesting (f_body (code (snd f)) vs)) ->
  length a0 = length (f_params (code (snd f))) ->
  x_invokeTrampoline code sg what nx f l s (ctx_of nm0 a0 [] nm) = Done (l', s', c', o) ->
  invokeTrampoline code sg n f s (ctx_of nm0 a0 [] nm) = Done (s', c', o) \/
  (o = inr bad /\ stopped nm0 a0 c' (invokeTrampoline code sg n f s (ctx_of nm0 a0 [] nm))).
Proof.
  intros O L H. pose proof H as H0. unfold x_invokeTrampoline in H.
  destruct (x_convert_cases what (f_params (code (snd f))) 0 [] a0 l eq_refl L)
    as (l1 & [C|[P C]]); simpl in C; cbn [cc_input ctx_of i_args] in H; rewrite C in H; cbn [bind] in H.
  2:{ injection H as <- <- <- <-. right. split; [reflexivity|].
      exists [], nm. split; [reflexivity|]. intros s2 c2 o2 Q.
      destruct (trampoline_keeps _ _ _ _ _ _ _ _ _ O Q) as (evs & nm2 & I & E1 & E2).
      exists evs, nm2. auto. }
  rewrite (trampoline code sg n f s nm0 a0 nm L).
  unfold x_invoke in H. unfold invoke. rewrite any_failed_errs in *.
  destruct (errs_of _ (from_all (f_params (code (snd f))) a0)) as [|e es] eqn:B.
  - destruct (from_all_values _ _ L B) as (vs & TV & V). rewrite TV in *. cbn [bind] in *.
    destruct (ExecThrow.x_run sg what nx (fst f) l1 s _ (f_body (code (snd f)) vs))
      as [[[[l2 s1] c1] fin]|] eqn:Q; [|discriminate]. cbn [bind] in H.
    apply (x_run_prefix nx n) in Q; [|apply O].
    destruct Q as [Q|[-> S]].
    + unfold ctx_of in *. rewrite Q. cbn [bind]. destruct fin as [v|x].
      * pose proof (x_text_cases (f_result (code (snd f))) l2 v) as T.
        destruct (x_text _ _ _ _) as [[l3 [t|x]]|]; cbn [bind] in H; [| |discriminate].
        -- rewrite T. cbn [bind]. injection H as <- <- <- <-. now left.
        -- subst x. injection H as <- <- <- <-. right. split; [reflexivity|].
           change (CallCtx (Input nm0 a0 nm) (Result no_input (errors_of []) None (output_of [])))
             with (ctx_of nm0 a0 [] nm) in Q.
           apply run_grows in Q; [|apply O]. destruct Q as (m & nm' & ->). cbn [app].
           exists m, nm'. split; [reflexivity|]. intros s2 c2 o2.
           destruct (rtext _ v) as [t|]; cbn [bind]; [|discriminate]. intros [= <- <- <-].
           exists [], nm'. rewrite app_nil_r. destruct (cc_hasErrors _); repeat split.
      * injection H as <- <- <- <-. now left.
    + injection H as <- <- <- <-. right. split; [reflexivity|].
      destruct S as (evs' & nm' & -> & S). exists evs', nm'. split; [reflexivity|].
      intros s2 c2 o2. unfold ctx_of in *. 
      destruct (run_prog sg n _ _ _ _) as [[[s3 c3] fin3]|]; cbn [bind]; [|discriminate].
      destruct (S _ _ _ eq_refl) as (m & nm2 & I & E1 & E2).
      destruct fin3 as [v|x].
      * destruct (rtext _ v) as [t|]; cbn [bind]; [|discriminate]. intros [= <- <- <-].
        exists m, nm2. destruct (cc_hasErrors c3); auto.
      * intros [= <- <- <-]. exists m, nm2. auto.
  - rewrite report_failed_ctx.
    destruct (x_report_failed_cases what (f_params (code (snd f)))
                (from_all (f_params (code (snd f))) a0) l1 nm0 a0 [] nm) as (l2 & [R|(g & e1 & r & E & R)]);
      unfold ctx_of in *; rewrite R in H; injection H as <- <- <- <-.
    + left. reflexivity.
    + right. split; [reflexivity|]. exists (map Reported g), nm. split; [reflexivity|].
      intros s2 c2 o2 [= <- <- <-]. exists (map Reported (e1 :: r)), nm.
      rewrite E, <- map_app. repeat split.
Qed.

(** Programs that do not change the registry, when they are stopped. *)
Lemma x_run_simple nx R sid (p : prog W F R) : only simple p -> forall l s c l' s' c' fin,
  x_run nx sid l s c p = Done (l', s', c', fin) -> exists w, s' = set_world s w.
Proof.
  assert (I : forall s : state, exists w, s = set_world s w).
  { intros s. exists (s_world s). now destruct s. }
  cases p IH; intros O l s c l' s' c' fin H; simpl in O; try (destruct O as [O1 O2]);
    try discriminate; cbn [ExecThrow.x_run] in H; destruct (ask l) as [[|] l1];
    try (injection H as <- <- <- <-; apply I; fail); eauto.
  - apply IH in H; [|exact O2]. destruct H as (w' & ->). now exists w'.
  - destruct (is_live s sid); [eauto|discriminate].
Qed.

Lemma x_run_lift {L R} nx sid (p : prog W F R) : only no_nesting p ->
  forall l (s : Exec.state (W * L) F) c l' s' c' fin,
  ExecThrow.x_run sg what nx sid l s c (lift p) = Done (l', s', c', fin) ->
  snd (s_world s') = snd (s_world s).
Proof.
  cases p IH; intros O l s c l' s' c' fin H; simpl in O; try (destruct O as [O1 O2]);
    try discriminate; cbn [lift ExecThrow.x_run] in H; destruct (ask l) as [[|] l1];
    try (now injection H as <- <- <- <-); eauto.
  - destruct (ask l1) as [[|] l2]; [now injection H as <- <- <- <-|].
    apply IH in H; [|exact O2]. exact H.
  - destruct (is_live s sid); [eauto|discriminate].
  - destruct (x_add sg what l1 s nme fs) as [[[l2 s1] o]|] eqn:A; [|discriminate]. cbn [bind] in H.
    apply x_add_sound in A. destruct A as [[-> A]|[-> A]].
    + injection H as <- <- <- <-.
      destruct A as [->|[_ (m & _ & ->)]]; reflexivity.
    + apply IH in H; [|exact O2]. rewrite H. unfold add in A.
      destruct (insertOrAssign _ _ _ _ _); cbn [bind] in A; [|discriminate]. now injection A as <-.
  - unfold remove in H. destruct (erase _ _ _ _) as [m|]; cbn [bind] in H; [|discriminate].
    apply IH in H; [|exact O2]. exact H.
  - apply IH in H; [|exact O2]. exact H.
  - apply IH in H; [|exact O2]. exact H.
Qed.
End More.
