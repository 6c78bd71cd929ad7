(** Consequences of the specification used by the properties C26-C39 and C50. *)
From Coq Require Import Ascii String NArith ZArith Bool PeanoNat Lia List.
Import ListNotations.
From Verif Require Import Util Base StringConv StringConvSpec StringConvProofs
  SerializerSpec Serializer SerializerProofs Lexer UMap Exec ExecSpec ExecProofs.

Section More.
Context {W F : Type}.
Variable code : F -> functor W F.
Variable sg catching : bool.

Local Notation state := (state W F).
Local Notation runs := (runs code sg catching).
Local Notation answers := (answers code sg catching).
Local Notation executes := (executes code sg catching).
Local Notation exec_text := (exec_text code sg catching).
Local Notation exec_input := (exec_input code sg catching).

(** Inversion of [runs], by cases on the program. *)
Definition run_step R sid (s : state) evs nm (p : prog W F R) s' evs' nm' fin : Prop :=
  match p with
  | Ret r => s' = s /\ evs' = evs /\ nm' = nm /\ fin = inl r
  | Throw x => s' = s /\ evs' = evs /\ nm' = nm /\ fin = inr x
  | Log t k => runs R sid s (evs ++ [Logged t]) nm k s' evs' nm' fin
  | LogLine t k => runs R sid s (evs ++ [LoggedLine t]) nm k s' evs' nm' fin
  | ReportError e k => runs R sid s (evs ++ [Reported e]) nm k s' evs' nm' fin
  | HasErrors k => exists b, has_error evs b /\ runs R sid s evs nm (k b) s' evs' nm' fin
  | GetNamed k => runs R sid s evs nm (k nm) s' evs' nm' fin
  | PutNamed i nv k => exists nm1, replaced nv i nm nm1 /\ runs R sid s evs nm1 k s' evs' nm' fin
  | GetState k => runs R sid s evs nm (k (s_world s)) s' evs' nm' fin
  | PutState w k => runs R sid (set_world s w) evs nm k s' evs' nm' fin
  | Touch k => stored s sid /\ runs R sid s evs nm k s' evs' nm' fin
  | DoAdd n fs k => exists s1, add sg s n fs = Done s1 /\ runs R sid s1 evs nm k s' evs' nm' fin
  | DoRemove n k => exists s1, remove sg s n = Done s1 /\ runs R sid s1 evs nm k s' evs' nm' fin
  | DoClear k => runs R sid (clear_all s) evs nm k s' evs' nm' fin
  | DoSetLexer l k => runs R sid (set_lexer s l) evs nm k s' evs' nm' fin
  | DoExecute cmd k => exists s1 r, executes s cmd s1 r /\ runs R sid s1 evs nm (k r) s' evs' nm' fin
  end.

Lemma run_step_iff R sid s evs nm p s' evs' nm' fin :
  runs R sid s evs nm p s' evs' nm' fin <-> run_step R sid s evs nm p s' evs' nm' fin.
Proof.
  split.
  - intros []; simpl; eauto 10.
  - destruct p; simpl.
    + intros (-> & -> & -> & ->). constructor.
    + intros (-> & -> & -> & ->). constructor.
    + now constructor.
    + now constructor.
    + now constructor.
    + intros (b & B & H). econstructor; eauto.
    + now constructor.
    + intros (n1 & B & H). econstructor; eauto.
    + now constructor.
    + destruct s. now constructor.
    + intros [A B]. now constructor.
    + intros (n1 & B & H). econstructor; eauto.
    + intros (n1 & B & H). econstructor; eauto.
    + now constructor.
    + destruct s. now constructor.
    + intros (s1 & r & B & H). econstructor; eauto.
Qed.

(** Events are only ever added. *)
Lemma runs_events R sid (p : prog W F R) : forall s evs nm s' evs' nm' fin,
  runs R sid s evs nm p s' evs' nm' fin -> exists new, evs' = evs ++ new.
Proof.
  induction p as [r|x|t k IH|t k IH|e k IH|k IH|k IH|i nv k IH|k IH|w k IH|k IH|nme fs k IH
                 |nme k IH|k IH|l k IH|cmd k IH];
    intros s evs nm s' evs' nm' fin H; apply run_step_iff in H; simpl in H.
  - destruct H as (_ & -> & _). exists []. now rewrite app_nil_r.
  - destruct H as (_ & -> & _). exists []. now rewrite app_nil_r.
  - apply IH in H. destruct H as (new & ->). rewrite <- app_assoc. eauto.
  - apply IH in H. destruct H as (new & ->). rewrite <- app_assoc. eauto.
  - apply IH in H. destruct H as (new & ->). rewrite <- app_assoc. eauto.
  - destruct H as (b & _ & H). eauto.
  - eauto.
  - destruct H as (b & _ & H). eauto.
  - eauto.
  - eauto.
  - destruct H as (_ & H). eauto.
  - destruct H as (s1 & _ & H). eauto.
  - destruct H as (s1 & _ & H). eauto.
  - eauto.
  - eauto.
  - destruct H as (s1 & r & _ & H). eauto.
Qed.

(** Distributing existentials over the two ways a sequence can end. *)
Ltac opened :=
  repeat match goal with
         | H : exists _, _ |- _ => destruct H
         | H : _ /\ _ |- _ => destruct H
         | H : _ \/ _ |- _ => destruct H
         end.
Ltac push := split; intros H; opened; eauto 12.

(** Sequencing. *)
Lemma runs_andThen A B sid (p : prog W F A) (k : A -> prog W F B) : forall s evs nm s' evs' nm' fin,
  runs B sid s evs nm (andThen p k) s' evs' nm' fin <->
  (exists s1 evs1 nm1 a, runs A sid s evs nm p s1 evs1 nm1 (inl a) /\
     runs B sid s1 evs1 nm1 (k a) s' evs' nm' fin) \/
  (exists x, runs A sid s evs nm p s' evs' nm' (inr x) /\ fin = inr x).
Proof.
  induction p as [r|x|t p IH|t p IH|e p IH|p IH|p IH|i nv p IH|p IH|w p IH|p IH|nme fs p IH
                 |nme p IH|p IH|l p IH|cmd p IH];
    intros s evs nm s' evs' nm' fin;
    [| | simpl; rewrite run_step_iff; simpl; try rewrite IH ..].
  - simpl. split.
    + intros H. left. do 4 eexists. split; [constructor|exact H].
    + intros [(s1 & e1 & n1 & a & H & K)|(x & H & _)]; apply run_step_iff in H; simpl in H.
      * destruct H as (-> & -> & -> & [= ->]). exact K.
      * destruct H as (_ & _ & _ & H). discriminate.
  - simpl. rewrite run_step_iff. simpl. split.
    + intros (-> & -> & -> & ->). right. exists x. split; [constructor|reflexivity].
    + intros [(s1 & e1 & n1 & a & H & K)|(y & H & ->)]; apply run_step_iff in H; simpl in H.
      * destruct H as (_ & _ & _ & H). discriminate.
      * destruct H as (-> & -> & -> & [= ->]). auto.
  - setoid_rewrite (run_step_iff A _ _ _ _ (Log t p)). reflexivity.
  - setoid_rewrite (run_step_iff A _ _ _ _ (LogLine t p)). reflexivity.
  - setoid_rewrite (run_step_iff A _ _ _ _ (ReportError e p)). reflexivity.
  - setoid_rewrite (run_step_iff A _ _ _ _ (HasErrors p)). simpl. setoid_rewrite IH. push.
  - setoid_rewrite (run_step_iff A _ _ _ _ (GetNamed p)). simpl. reflexivity.
  - setoid_rewrite (run_step_iff A _ _ _ _ (PutNamed i nv p)). simpl. setoid_rewrite IH. push.
  - setoid_rewrite (run_step_iff A _ _ _ _ (GetState p)). reflexivity.
  - setoid_rewrite (run_step_iff A _ _ _ _ (PutState w p)). reflexivity.
  - setoid_rewrite (run_step_iff A _ _ _ _ (Touch p)). simpl. push.
  - setoid_rewrite (run_step_iff A _ _ _ _ (DoAdd nme fs p)). simpl. setoid_rewrite IH. push.
  - setoid_rewrite (run_step_iff A _ _ _ _ (DoRemove nme p)). simpl. setoid_rewrite IH. push.
  - setoid_rewrite (run_step_iff A _ _ _ _ (DoClear p)). reflexivity.
  - setoid_rewrite (run_step_iff A _ _ _ _ (DoSetLexer l p)). reflexivity.
  - setoid_rewrite (run_step_iff A _ _ _ _ (DoExecute cmd p)). simpl. setoid_rewrite IH. push.
Qed.
End More.
