(** Consequences of what kinds of operations a handler uses. *)
From Coq Require Import Ascii String NArith ZArith Bool PeanoNat Lia List.
Import ListNotations.
From Verif Require Import Util Base StringConv StringConvSpec StringConvProofs
  SerializerSpec Serializer SerializerProofs Lexer UMap UMapSpec UMapProofs UMapIter
  Exec ExecSpec ExecProofs ExecMore.

Section Kinds.
Context {W F : Type}.
Variable code : F -> functor W F.
Variable sg catching : bool.

Local Notation state := (state W F).
Local Notation runs := (runs code sg catching).
Local Notation answers := (answers code sg catching).
Local Notation executes := (executes code sg catching).
Local Notation exec_text := (exec_text code sg catching).
Local Notation exec_input := (exec_input code sg catching).
Local Notation nested_exec := (nested_exec code sg catching).

Ltac prog_cases p IH :=
  induction p as [r|x|t p IH|t p IH|e p IH|p IH|p IH|i nv p IH|p IH|w p IH|p IH|nme fs p IH
                 |nme p IH|p IH|l p IH|cmd p IH].

Ltac opened :=
  repeat match goal with
         | H : exists _, _ |- _ => destruct H
         | H : _ /\ _ |- _ => destruct H
         end.

Ltac stepped :=
  match goal with H : ExecSpec.runs _ _ _ _ _ _ _ _ _ _ _ _ _ |- _ =>
    apply run_step_iff in H; simpl in H end.

Lemma runs_keeps_named R sid (p : prog W F R) : forall s evs nm s' evs' nm' fin,
  only keeps_named p -> runs R sid s evs nm p s' evs' nm' fin -> nm' = nm.
Proof.
  prog_cases p IH; intros s evs nm s' evs' nm' fin O H; simpl in O; stepped; opened;
    try discriminate; subst; eauto.
Qed.

Lemma only_weaken (a b : opkind -> bool) R (p : prog W F R) :
  (forall k, a k = true -> b k = true) -> only a p -> only b p.
Proof.
  intros I. prog_cases p IH; simpl; intros O; opened; eauto 8.
Qed.

Lemma runs_no_context R sid (p : prog W F R) : forall s evs nm s' evs' nm' fin,
  only no_context p -> runs R sid s evs nm p s' evs' nm' fin -> evs' = evs /\ nm' = nm.
Proof.
  prog_cases p IH; intros s evs nm s' evs' nm' fin O H; simpl in O; stepped; opened;
    try discriminate; subst; eauto.
Qed.

(** Programs that only read the state end, leave everything as it is and do not depend on
    anything but the application state. *)
Lemma observing_runs R sid (p : prog W F R) : only observing p -> forall s, exists fin,
  forall evs nm, runs R sid s evs nm p s evs nm fin.
Proof.
  prog_cases p IH; intros O s; simpl in O; opened; try discriminate.
  - eexists. intros. constructor.
  - eexists. intros. constructor.
  - destruct (IH (s_world s) (H0 _) s) as (fin & G). exists fin. intros. constructor. auto.
Qed.

Lemma runs_det R sid s evs nm (p : prog W F R) s1 e1 n1 f1 s2 e2 n2 f2 :
  runs R sid s evs nm p s1 e1 n1 f1 -> runs R sid s evs nm p s2 e2 n2 f2 ->
  s1 = s2 /\ n1 = n2 /\ f1 = f2 /\ errors_of e1 = errors_of e2 /\ output_of e1 = output_of e2.
Proof.
  intros A B. apply run_complete in A. apply run_complete in B.
  destruct A as (d1 & A). destruct B as (d2 & B).
  specialize (A [] []). specialize (B [] []).
  apply (run_mono _ _ _ _ (d1 + d2)) in A; [|lia].
  apply (run_mono _ _ _ _ (d1 + d2)) in B; [|lia].
  rewrite A in B. injection B. auto.
Qed.

Lemma observing_same R sid (p : prog W F R) s evs nm s' evs' nm' fin :
  only observing p -> runs R sid s evs nm p s' evs' nm' fin -> s' = s /\ evs' = evs /\ nm' = nm.
Proof.
  intros O H.
  assert (O' : only no_context p) by (eapply only_weaken; [|exact O]; now intros []).
  destruct (runs_no_context _ _ _ _ _ _ _ _ _ _ O' H) as [-> ->].
  destruct (observing_runs R sid p O s) as (fin' & G).
  destruct (runs_det _ _ _ _ _ _ _ _ _ _ _ _ _ _ H (G evs nm)) as (-> & _). auto.
Qed.

(** Programs that leave the registry alone. *)
Lemma simple_registry R sid (p : prog W F R) : only simple p ->
  forall s evs nm s' evs' nm' fin, runs R sid s evs nm p s' evs' nm' fin ->
  s_lexer s' = s_lexer s /\ s_commands s' = s_commands s /\ s_next s' = s_next s.
Proof.
  prog_cases p IH; intros O s evs nm s' evs' nm' fin H; simpl in O; stepped; opened;
    try discriminate; subst; auto;
    match goal with H : runs _ _ _ _ _ _ _ _ _ _ |- _ => apply IH in H; auto end.
Qed.

Lemma stored_commands (s s' : state) sid :
  s_commands s' = s_commands s -> stored s sid -> stored s' sid.
Proof. unfold stored. now intros ->. Qed.

(** They always end normally, whatever nested execution would do. *)
Lemma simple_done nested R sid (p : prog W F R) : only simple p ->
  forall s c, stored s sid -> exists s' c' fin, run_prog sg nested sid s c p = Done (s', c', fin).
Proof.
  prog_cases p IH; intros O s c L; simpl in O; opened; try discriminate; simpl; eauto.
  apply is_live_stored in L as L'. rewrite L'. auto.
Qed.

Lemma no_nesting_run n1 n2 R sid (p : prog W F R) : only no_nesting p ->
  forall s c, run_prog sg n1 sid s c p = run_prog sg n2 sid s c p.
Proof.
  prog_cases p IH; intros O s c; simpl in O; opened; try discriminate; simpl; auto.
  - destruct (is_live s sid); auto.
  - destruct (add sg s nme fs); simpl; auto.
  - destruct (remove sg s nme); simpl; auto.
Qed.

(** What an execution amounts to: every sufficiently large nesting bound gives it. *)
Lemma answers_gives s inp s' r :
  answers s inp s' r <-> exists d0, forall d, d0 <= d -> exec_input d s inp = Done (s', r).
Proof.
  split.
  - intros H. apply exec_input_complete in H. destruct H as (d0 & H). exists d0. intros d L.
    eapply exec_input_mono; eauto.
  - intros (d0 & H). eapply exec_input_sound. apply (H d0). lia.
Qed.

Lemma executes_gives s cmd s' r :
  executes s cmd s' r <-> exists d0, forall d, d0 <= d -> exec_text d s cmd = Done (s', r).
Proof.
  split.
  - intros H. apply exec_text_complete in H. destruct H as (d0 & H). exists d0. intros d L.
    eapply exec_text_mono; eauto.
  - intros (d0 & H). eapply exec_text_sound. apply (H d0). lia.
Qed.

(** ** What is stored *)

Local Notation feq := (bytes_eqb).

Lemma get_stored (s : state) name cmd f :
  get sg s name = Done (Some cmd) -> In f (c_functors cmd) -> stored s (fst f).
Proof.
  unfold get. intros G I. apply find_entry in G. destruct G as (k & _ & G).
  unfold iterate in G. apply in_map_iff in G. destruct G as (n & E & G).
  exists n, (snd f). split; [exact G|]. injection E as _ <-. now destruct f.
Qed.

(** The storage belongs to the command of that name. *)
Definition stored_as (s : state) (name : bytes) (sid : nat) : Prop :=
  exists cmd f, In (name, cmd) (iterate (s_commands s)) /\ In (sid, f) (c_functors cmd).

Lemma stored_as_stored s name sid : stored_as s name sid -> stored s sid.
Proof.
  intros (cmd & f & I & J). unfold iterate in I. apply in_map_iff in I.
  destruct I as (n & E & I). exists n, f. split; [exact I|]. now injection E as _ ->.
Qed.

Lemma get_stored_as (s : state) name cmd f :
  get sg s name = Done (Some cmd) -> In f (c_functors cmd) -> stored_as s name (fst f).
Proof.
  unfold get. intros G I. apply find_entry in G. destruct G as (k & E & G).
  apply bytes_eqb_eq in E. subst k. exists cmd, (snd f). split; [exact G|]. now destruct f.
Qed.

Lemma add_keeps (s : state) name fs s1 own sid :
  add sg s name fs = Done s1 -> bytes_eqb name own = false ->
  stored_as s own sid -> stored_as s1 own sid.
Proof.
  unfold add. destruct (insertOrAssign _ _ _ _ _) as [m|] eqn:E; simpl; [|discriminate].
  intros [= <-] N (cmd & f & I & J). exists cmd, f. split; [|exact J]. simpl.
  eapply insert_keeps; [exact E|exact I|]. simpl.
  destruct (bytes_eqb_spec own name); [subst; now rewrite bytes_eqb_refl in N|reflexivity].
Qed.

Lemma remove_keeps (s : state) name s1 own sid :
  remove sg s name = Done s1 -> bytes_eqb name own = false ->
  stored_as s own sid -> stored_as s1 own sid.
Proof.
  unfold remove. destruct (erase _ _ _ _) as [m|] eqn:E; simpl; [|discriminate].
  intros [= <-] N (cmd & f & I & J). exists cmd, f. split; [|exact J]. simpl.
  eapply erase_keeps; [exact E|exact I|]. simpl.
  destruct (bytes_eqb_spec own name); [subst; now rewrite bytes_eqb_refl in N|reflexivity].
Qed.

(** ** Careful handlers never use freed memory *)

Variable ok : bytes -> F -> Prop.
Variable fixed : bytes -> bool.
Hypothesis ok_careful : forall n f vs, ok n f -> careful ok fixed n true (f_body (code f) vs).

(** Fixed commands stay registered. *)
Definition keeps (s s' : state) : Prop :=
  forall own sid, fixed own = true -> stored_as s own sid -> stored_as s' own sid.
Lemma keeps_same s s' : s_commands s' = s_commands s -> keeps s s'.
Proof. intros E own sid _. unfold stored_as. now rewrite E. Qed.
Lemma keeps_trans s1 s2 s3 : keeps s1 s2 -> keeps s2 s3 -> keeps s1 s3.
Proof. unfold keeps. eauto. Qed.
Lemma not_fixed n own : fixed n = false -> fixed own = true -> bytes_eqb n own = false.
Proof. intros A B. destruct (bytes_eqb_spec n own); [congruence|reflexivity]. Qed.

Definition all_ok (s : state) : Prop :=
  clean_lexer (s_lexer s) /\
  forall name cmd f, In (name, cmd) (iterate (s_commands s)) -> In f (c_functors cmd) ->
    ok name (snd f).

Lemma in_combine_snd {A B} (l : list A) (r : list B) p : In p (combine l r) -> In (snd p) r.
Proof. destruct p. apply in_combine_r. Qed.

Lemma add_ok s name fs s1 :
  add sg s name fs = Done s1 -> (forall f, In f fs -> ok name f) -> all_ok s -> all_ok s1.
Proof.
  unfold add. destruct (insertOrAssign _ _ _ _ _) as [m|] eqn:E; simpl; [|discriminate].
  intros [= <-] H [L O]. split; [exact L|]. simpl. intros n cmd f I J.
  destruct (insert_only _ _ _ _ _ _ _ E I) as [I'|[V [K|K]]]; [eauto| |].
  - simpl in V, K. apply bytes_eqb_eq in K. subst n cmd. apply H. simpl in J.
    eapply in_combine_snd; eauto.
  - injection K as -> ->. apply H. simpl in J. eapply in_combine_snd; eauto.
Qed.

Lemma remove_ok s name s1 : remove sg s name = Done s1 -> all_ok s -> all_ok s1.
Proof.
  unfold remove. destruct (erase _ _ _ _) as [m|] eqn:E; simpl; [|discriminate].
  intros [= <-] [L O]. split; [exact L|]. simpl. intros n cmd f I J.
  eapply O; [|exact J]. eapply erase_only; eauto.
Qed.

Lemma clear_ok s : all_ok s -> all_ok (clear_all s).
Proof. intros [L O]. split; [exact L|]. simpl. easy. Qed.

Definition safe_nested (nested : nested_call W F) : Prop :=
  forall s cmd, all_ok s ->
    nested s cmd <> Fault UseAfterFree /\
    forall s' r, nested s cmd = Done (s', r) -> all_ok s' /\ keeps s s'.

(** The map operations never fault that way. *)
Definition clean {A} (o : outcome A) : Prop := o <> Fault UseAfterFree.

Lemma clean_done {A} (x : A) : clean (Done x).
Proof. discriminate. Qed.
Lemma clean_bind {A B} (o : outcome A) (k : A -> outcome B) :
  clean o -> (forall x, clean (k x)) -> clean (bind o k).
Proof. unfold clean. intros H K. destruct o; simpl; [apply K|congruence]. Qed.
Lemma clean_at {A} (l : list A) i : clean (at_ l i).
Proof. unfold at_, clean. destruct (nth_error l i); discriminate. Qed.
Lemma clean_assert b : clean (assert_ b).
Proof. unfold clean. destruct b; discriminate. Qed.

Ltac cleaner :=
  repeat first
    [ apply clean_done | apply clean_at | apply clean_assert
    | apply clean_bind; [|intros ?]
    | match goal with |- clean (match ?x with _ => _ end) => destruct x end
    | (unfold clean; discriminate) ].

Section MapClean.
Context {K V : Type}.
Variable keqb : K -> K -> bool.
Variable hash : K -> Z.
Implicit Type m : umap K V.

Lemma clean_put_next (ns : list (node K V)) i x : clean (put_next ns i x).
Proof. unfold put_next. cleaner. Qed.
Lemma clean_put_prev (ns : list (node K V)) i x : clean (put_prev ns i x).
Proof. unfold put_prev. cleaner. Qed.
Lemma clean_bucket m k : clean (computeBucketIndex hash m k).
Proof. unfold computeBucketIndex. cleaner. Qed.
Lemma clean_find_walk fuel : forall (ns : list (node K V)) k c, clean (find_walk keqb fuel ns k c).
Proof.
  induction fuel as [|f IH]; intros ns k [c|]; simpl; cleaner. apply IH.
Qed.
Lemma clean_findIndex m k : clean (findNodeIndex keqb hash m k).
Proof.
  unfold findNodeIndex. apply clean_bind; [apply clean_bucket|intros b].
  apply clean_bind; [apply clean_at|intros c]. apply clean_find_walk.
Qed.
Lemma clean_find m k : clean (find keqb hash m k).
Proof. unfold find. apply clean_bind; [apply clean_findIndex|]. intros [i|]; cleaner. Qed.
Lemma clean_insert_walk fuel : forall (ns : list (node K V)) n i, clean (insert_walk fuel ns n i).
Proof.
  induction fuel as [|f IH]; intros ns n i; simpl; cleaner;
    auto using clean_put_next, clean_put_prev.
Qed.
Lemma clean_insertNode m i : clean (insertNode hash m i).
Proof.
  unfold insertNode. apply clean_bind; [apply clean_at|intros n].
  apply clean_bind; [apply clean_bucket|intros b]. apply clean_bind; [apply clean_at|intros [x|]].
  - apply clean_bind; [apply clean_insert_walk|]. intros. apply clean_done.
  - apply clean_done.
Qed.
Lemma clean_rehash_loop t : forall i m, clean (rehash_loop hash t i m).
Proof.
  induction t as [|t IH]; intros i m; simpl; [apply clean_done|].
  apply clean_bind; [apply clean_insertNode|]. intros. apply IH.
Qed.
Lemma clean_insert m k v : clean (insertOrAssign keqb hash m k v).
Proof.
  unfold insertOrAssign. apply clean_bind; [apply clean_findIndex|]. intros [i|]; [cleaner|].
  apply clean_bind; [|intros; apply clean_insertNode].
  destruct (load_exceeds _ _); [apply clean_rehash_loop|apply clean_done].
Qed.
Lemma clean_erase m k : clean (erase keqb hash m k).
Proof.
  unfold erase. apply clean_bind; [apply clean_findIndex|]. intros [i|]; [|apply clean_done].
  apply clean_bind; [|intros m1; apply clean_bind; [|intros m2]].
  - unfold unlink, put_next, put_prev. cleaner.
  - unfold relocate, swap_nodes, put_next. cleaner.
  - unfold pop_node. cleaner.
Qed.
End MapClean.

Lemma run_careful nested (N : safe_nested nested) own sid R (p : prog W F R) :
  forall live s c, careful ok fixed own live p -> all_ok s -> (live = true -> stored_as s own sid) ->
  clean (run_prog sg nested sid s c p) /\
  forall s' c' fin, run_prog sg nested sid s c p = Done (s', c', fin) -> all_ok s' /\ keeps s s'.
Proof.
  prog_cases p IH; intros live s c C A L; simpl in C |- *;
    try (split; [apply clean_done|intros ? ? ? [= <- _ _]; split; [exact A|now apply keeps_same]]).
  - eapply IH; eauto.
  - eapply IH; eauto.
  - eapply IH; eauto.
  - eapply IH; eauto.
  - eapply IH; eauto.
  - eapply IH; eauto.
  - eapply IH; eauto.
  - apply (IH live (set_world s w) c C A L).
  - destruct C as [Lt C]. assert (L' := L Lt). apply stored_as_stored, is_live_stored in L'.
    rewrite L'. eapply IH; eauto.
  - destruct C as (Cf & Cn & C).
    destruct (add sg s nme fs) as [s1|f] eqn:E; simpl.
    + destruct (IH (live && negb (bytes_eqb nme own)) s1 c) as [I1 I2].
      * exact C.
      * eapply add_ok; eauto.
      * intros H. apply andb_true_iff in H.
        destruct H as [H1 H2]. apply negb_true_iff in H2. eapply add_keeps; eauto.
      * split; [exact I1|]. intros s' c' fin H. destruct (I2 _ _ _ H) as [J K].
        split; [exact J|]. eapply keeps_trans; [|exact K].
        intros o i Fo. eapply add_keeps; [exact E|]. now apply not_fixed.
    + split; [|discriminate]. intros [= ->]. unfold add in E.
      assert (G := clean_insert bytes_eqb (hash_view sg) (s_commands s) nme
                     (Command nme (combine (seq (s_next s) (length fs)) fs))).
      destruct (insertOrAssign _ _ _ _ _); simpl in E; [discriminate|]. apply G. congruence.
  - destruct C as [Cn C]. destruct (remove sg s nme) as [s1|f] eqn:E; simpl.
    + destruct (IH (live && negb (bytes_eqb nme own)) s1 c) as [I1 I2].
      * exact C.
      * eapply remove_ok; eauto.
      * intros H. apply andb_true_iff in H.
        destruct H as [H1 H2]. apply negb_true_iff in H2. eapply remove_keeps; eauto.
      * split; [exact I1|]. intros s' c' fin H. destruct (I2 _ _ _ H) as [J K].
        split; [exact J|]. eapply keeps_trans; [|exact K].
        intros o i Fo. eapply remove_keeps; [exact E|]. now apply not_fixed.
    + split; [|discriminate]. intros [= ->]. unfold remove in E.
      assert (G := clean_erase bytes_eqb (hash_view sg) (s_commands s) nme).
      destruct (erase _ _ _ _); simpl in E; [discriminate|]. apply G. congruence.
  - destruct C as [Cn C]. destruct (IH false (clear_all s) c) as [I1 I2].
    + exact C.
    + now apply clear_ok.
    + discriminate.
    + split; [exact I1|]. intros s' c' fin H. destruct (I2 _ _ _ H) as [J K].
      split; [exact J|]. intros o i Fo. now rewrite Cn in Fo.
  - destruct C as [Cl C]. destruct A as [_ A]. apply (IH live (set_lexer s l) c).
    + exact C.
    + split; [exact Cl|exact A].
    + exact L.
  - destruct (N s cmd A) as [N1 N2]. destruct (nested s cmd) as [[s1 r]|f] eqn:E; simpl.
    + destruct (N2 _ _ eq_refl) as [J1 K1].
      destruct (IH r (live && fixed own) s1 c) as [I1 I2].
      * apply C.
      * exact J1.
      * intros H. apply andb_true_iff in H. destruct H as [H1 H2]. apply K1; auto.
      * split; [exact I1|]. intros s' c' fin H. destruct (I2 _ _ _ H) as [J K].
        split; [exact J|]. eapply keeps_trans; eauto.
    + split; [congruence|discriminate].
Qed.

Lemma input_careful nested (N : safe_nested nested) s inp : all_ok s ->
  clean (execute_input code sg catching nested s inp) /\
  forall s' r, execute_input code sg catching nested s inp = Done (s', r) -> all_ok s' /\ keeps s s'.
Proof.
  intros A.
  destruct (i_name inp) as [|a b] eqn:En.
  { rewrite input_unnamed by exact En. split; [discriminate|]. intros ? ? [= <- _]; split; [assumption|]; (exact R4 || now apply keeps_same). }
  assert (Ne : i_name inp <> []) by congruence.
  destruct (get sg s (i_name inp)) as [[cmd|]|f] eqn:G.
  - destruct (chosen_or_none code (c_functors cmd) (length (i_args inp))) as [(f & C)|C].
    + destruct C as (before & after & Cf & Cl & Cn).
      assert (C : chosen code (c_functors cmd) (length (i_args inp)) f) by (exists before, after; auto).
      assert (I : In f (c_functors cmd)) by (rewrite Cf; apply in_or_app; right; now left).
      rewrite (input_chosen _ _ _ _ _ _ _ _ Ne G C).
      assert (CE := from_all_errors (f_params (code (snd f))) (i_args inp) (eq_sym Cl)).
      destruct (errs_of (f_params (code (snd f))) (from_all (f_params (code (snd f))) (i_args inp)))
        as [|e es] eqn:Ee.
      * destruct (from_all_values _ _ (eq_sym Cl) Ee) as (vs & _ & V).
        rewrite (invoke_good _ _ _ _ _ _ _ _ _ V).
        assert (O : ok (i_name inp) (snd f)).
        { destruct A as [_ A]. destruct (find_entry _ _ _ _ _ G) as (k & K & J).
          apply bytes_eqb_eq in K. subst k. eapply A; eauto. }
        destruct (run_careful nested N (i_name inp) (fst f) _ (f_body (code (snd f)) vs) true s
                    (ctx_of (i_name inp) (i_args inp) [] (i_named inp))) as [R1 R2];
          [now apply ok_careful|exact A|intros _; eapply get_stored_as; eauto|].
        destruct (run_prog _ _ _ _ _ _) as [[[s1 c1] [v|x]]|q]; simpl.
        -- destruct (R2 _ _ _ eq_refl) as [R3 R4].
           destruct (rtext (f_result (code (snd f))) v) as [t|q] eqn:T; simpl.
           ++ split; [discriminate|]. intros ? ? [= <- _]; split; [assumption|]; (exact R4 || now apply keeps_same).
           ++ split; [|discriminate]. intros [= ->]. revert T.
              destruct (f_result (code (snd f))) as [|T0|T0|nm]; simpl.
              ** discriminate.
              ** unfold p_text, printer_of. discriminate.
              ** destruct v; discriminate.
              ** destruct v; discriminate.
        -- destruct (R2 _ _ _ eq_refl) as [R3 R4]. destruct catching.
           ++ split; [discriminate|]. intros ? ? [= <- _]; split; [assumption|]; (exact R4 || now apply keeps_same).
           ++ split; [discriminate|]. intros ? ? [= <- _]; split; [assumption|]; (exact R4 || now apply keeps_same).
        -- split; [intros [= ->]; now apply R1|discriminate].
      * rewrite (invoke_bad _ _ _ _ _ _ _ _ _ CE) by discriminate. simpl.
        split; [discriminate|]. intros ? ? [= <- _]; split; [assumption|]; (exact R4 || now apply keeps_same).
    + rewrite (input_arity _ _ _ _ _ _ _ Ne G C). split; [discriminate|]. intros ? ? [= <- _]; split; [assumption|]; (exact R4 || now apply keeps_same).
  - rewrite (input_unknown _ _ _ _ _ _ Ne G). split; [discriminate|]. intros ? ? [= <- _]; split; [assumption|]; (exact R4 || now apply keeps_same).
  - unfold execute_input, execute_ctx. simpl. rewrite En. rewrite En in G. rewrite G. simpl.
    split; [|discriminate]. intros [= ->].
    apply (clean_find bytes_eqb (hash_view sg) (s_commands s) (a :: b)). exact G.
Qed.

Lemma text_careful nested (N : safe_nested nested) : safe_nested (execute_text code sg catching nested).
Proof.
  intros s cmd A. unfold execute_text. destruct A as [L A].
  destruct (s_lexer s) as [lex|] eqn:El; [|split; discriminate].
  assert (C := L lex cmd eq_refl). unfold all_ok.
  destruct (lex cmd) as [[inp|e]|f] eqn:E; simpl.
  - apply input_careful; [exact N|]. split; [|exact A]. now rewrite El.
  - split; [discriminate|]. intros ? ? [= <- _]. split; [split; [|exact A]; now rewrite El|now apply keeps_same].
  - split; [congruence|discriminate].
Qed.

Lemma nested_careful d : safe_nested (nested_exec d).
Proof.
  induction d as [|d IH]; simpl.
  - intros s cmd _. split; discriminate.
  - now apply text_careful.
Qed.

Lemma careful_text d s cmd : all_ok s ->
  exec_text d s cmd <> Fault UseAfterFree /\
  forall s' r, exec_text d s cmd = Done (s', r) -> all_ok s' /\ keeps s s'.
Proof. apply text_careful, nested_careful. Qed.

Lemma careful_input d s inp : all_ok s ->
  exec_input d s inp <> Fault UseAfterFree /\
  forall s' r, exec_input d s inp = Done (s', r) -> all_ok s' /\ keeps s s'.
Proof. apply input_careful, nested_careful. Qed.
End Kinds.

(** ** Traces *)

Section Trace.
Context {W F : Type}.
Variable code : F -> functor W F.
Variable sg catching : bool.

Lemma lift_no_nesting {L R} (p : prog W F R) : only no_nesting p -> only no_nesting (lift (L := L) p).
Proof.
  induction p as [r|x|t p IH|t p IH|e p IH|p IH|p IH|i nv p IH|p IH|w p IH|p IH|nme fs p IH
                 |nme p IH|p IH|l p IH|cmd p IH]; simpl; intros O;
    try (destruct O as [O1 O2]); auto; try discriminate.
Qed.

Lemma lift_log {L R} nested sid (p : prog W F R) : only no_nesting p ->
  forall (s : state (W * L) F) c s' c' fin,
  run_prog sg nested sid s c (lift p) = Done (s', c', fin) ->
  snd (s_world s') = snd (s_world s).
Proof.
  induction p as [r|x|t p IH|t p IH|e p IH|p IH|p IH|i nv p IH|p IH|w p IH|p IH|nme fs p IH
                 |nme p IH|p IH|l p IH|cmd p IH]; simpl; intros O s c s' c' fin H;
    try (destruct O as [O1 O2]); try discriminate.
  - now injection H as <- _ _.
  - now injection H as <- _ _.
  - eauto.
  - eauto.
  - eauto.
  - eauto.
  - eauto.
  - eauto.
  - eauto.
  - apply (IH O2) in H. exact H.
  - destruct (is_live s sid); [eauto|discriminate].
  - unfold add in H. destruct (insertOrAssign _ _ _ _ _) as [m|]; simpl in H; [|discriminate].
    apply (IH O2) in H. exact H.
  - unfold remove in H. destruct (erase _ _ _ _) as [m|]; simpl in H; [|discriminate].
    apply (IH O2) in H. exact H.
  - apply (IH O2) in H. exact H.
  - apply (IH O2) in H. exact H.
Qed.
End Trace.
