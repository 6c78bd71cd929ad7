(** Lemmas about the specification of examples: a command whose arguments fit is not answered with an
    error about them; and how one part of the state develops in a dialogue. *)
From Coq Require Import Ascii String NArith ZArith Bool PeanoNat Lia List.
Import ListNotations.
From Verif Require Import Util Base LexerSpec Lexer LexerProofs LexerMore SerializerSpec Exec ExecSpec
  NamedExampleSpec ExampleSpec ExampleHistory ExampleProofs.

Local Notation length := List.length.

Lemma complaint_denotes {A} (K : kind A) v e x : complaint K v e -> ~ denotes_value K v x.
Proof.
  intros [s h e' -> N _ _|d e' L _ _] (s' & E & W); [injection E as <-; exact (N x W)|]. subst v. now apply L.
Qed.

(** No argument is both taken and complained about. *)
Definition exclusive (P : parameter) : Prop := forall v y e, p_ok P v y -> ~ p_bad P v e.
Lemma single_exclusive {A} (K : kind A) : exclusive (single K).
Proof. intros v y e O B. exact (complaint_denotes K v e y B O). Qed.
Lemma anything_exclusive : exclusive anything.
Proof. intros v y e _ []. Qed.

Lemma problems_accepted Ps pos es : problems Ps pos es -> Forall exclusive Ps -> accepted Ps pos -> es = [].
Proof.
  intros P. induction P as [|P Ps v vs x es O _ IH|P Ps v vs e es B _ IH]; intros X A; [reflexivity|..];
    inversion X; subst; inversion A as [|? ? ? ? (y & Y)]; subst; [now apply IH|].
  exfalso. match goal with H : exclusive P |- _ => exact (H v y e Y B) end.
Qed.

Lemma problems_length Ps pos es : problems Ps pos es -> length Ps = length pos.
Proof. induction 1; cbn; congruence. Qed.
Lemma accepted_length Ps pos : accepted Ps pos -> length Ps = length pos.
Proof. intros H. induction H; cbn; congruence. Qed.

Lemma same_image {A B} (f : A -> B) l x y : NoDup (map f l) -> In x l -> In y l -> f x = f y -> x = y.
Proof.
  induction l as [|z l IH]; intros N X Y E; [destruct X|]. cbn in N. inversion N as [|? ? N1 N2]; subst.
  destruct X as [->|X], Y as [->|Y]; [reflexivity| | |now apply IH].
  - elim N1. rewrite E. now apply in_map.
  - elim N1. rewrite <- E. now apply in_map.
Qed.

Section Table.
Context {S : Type}.
Variable table : list (bytes * list (list parameter)).
Variable acts : S -> bytes -> list (list bytes) -> list (bytes * list bytes) ->
                S -> list bytes -> option bytes -> bytes -> Prop.
Variable sg : bool.
Local Notation C := (cfg_classes sg default_cfg).

Definition well_formed : Prop :=
  NoDup (map fst table) /\ ~ In [] (map fst table) /\
  Forall (fun t => NoDup (map (@length _) (snd t)) /\ Forall (Forall exclusive) (snd t)) table.
Hypothesis Wf : well_formed.

(** The arguments fit an overload. *)
Definition fitting (name : bytes) (pos : list (list bytes)) : Prop :=
  exists overloads Ps, In (name, overloads) table /\ In Ps overloads /\ accepted Ps pos.

Lemma does_cases sc name pos nd sc' es ret out : does table acts sc name pos nd sc' es ret out ->
  acts sc name pos nd sc' es ret out \/ sc' = sc /\ es <> [] /\ ret = None /\ out = [] /\ ~ fitting name pos.
Proof.
  destruct Wf as (Nn & Ne & F). rewrite Forall_forall in F.
  assert (Same : forall os os', In (name, os) table -> In (name, os') table -> os = os').
  { intros os os' J J'. assert (X := same_image fst table _ _ Nn J J' eq_refl). now injection X. }
  intros [l1 e1 r1 o1 A|os Ps e1 J K P Nz|os e1 J Nl M|e1 Nx Nt U|En]; [now left|right..];
    (split; [reflexivity|]); (split; [assumption||discriminate|]); (split; [reflexivity|]); (split; [reflexivity|]);
    intros (os' & Ps' & J' & K' & A).
  - rewrite (Same _ _ J' J) in K'. destruct (F _ J) as [Nd X]. cbn [snd] in Nd, X.
    assert (L := eq_trans (accepted_length _ _ A) (eq_sym (problems_length _ _ _ P))).
    rewrite (same_image _ os _ _ Nd K' K L) in A. rewrite Forall_forall in X.
    exact (Nz (problems_accepted _ _ _ P (X Ps K) A)).
  - rewrite (Same _ _ J' J) in K'. apply Nl. rewrite <- (accepted_length _ _ A). now apply in_map.
  - apply Nt. apply (in_map fst) in J'. exact J'.
  - apply Ne. apply (in_map fst) in J'. cbn [fst] in J'. now rewrite En in J'.
Qed.

(** ** One part of the state *)

Context {A : Type}.
Variable part : S -> A.
(** [moves name pos a b]: with these arguments, the command changes the part from [a] to [b]. *)
Variable moves : bytes -> list (list bytes) -> A -> A -> Prop.

Local Notation history := (history C moves).

Hypothesis moves_fit : forall name pos a b, moves name pos a b -> fitting name pos.
Hypothesis acts_moves : forall sc name pos nd sc' es ret out, acts sc name pos nd sc' es ret out ->
  moves name pos (part sc) (part sc') \/
  part sc' = part sc /\ forall b, ~ moves name pos (part sc) b.

Lemma dialogue_history sc lines sc' rs : dialogue table acts C sc lines sc' rs -> history (part sc) lines (part sc').
Proof.
  induction 1 as [sc|sc line lines sc1 es ret out sc2 rs X D IH]; [constructor|].
  destruct X as [e K|name pos nd sc1 es ret out K X].
  - apply history_stays; [|exact IH]. intros name pos nd b K' _. assert (Y := command_det _ _ _ _ _ K K'). discriminate Y.
  - assert (Only : forall b, ~ moves name pos (part sc) b -> forall name' pos' nd',
      LexerSpec.command C line (inl (SInput name' pos' nd')) -> ~ moves name' pos' (part sc) b).
    { intros b N name' pos' nd' K'. assert (Y := command_det _ _ _ _ _ K K'). injection Y as <- <- <-. exact N. }
    apply does_cases in X. destruct X as [X|(-> & _ & _ & _ & N)].
    + apply acts_moves in X. destruct X as [X|[E X]]; [eapply history_moves; [exact K|exact X|exact IH]|].
      rewrite E in IH. apply history_stays; [|exact IH]. intros name' pos' nd' b K'. exact (Only b (X b) _ _ _ K').
    + apply history_stays; [|exact IH]. intros name' pos' nd' b K'. apply (Only b) with (nd' := nd'); [|exact K'].
      intros M. exact (N (moves_fit _ _ _ _ M)).
Qed.

Hypothesis moves_det : forall name pos a b b', moves name pos a b -> moves name pos a b' -> b = b'.

Lemma history_unique a lines b b' : history a lines b -> history a lines b' -> b = b'.
Proof.
  intros H. revert b'. induction H as [a|line lines name pos nd a b c K M H IH|line lines a c N H IH]; intros b' H'.
  - now inversion H'.
  - inversion H' as [|? ? name' pos' nd' ? b1 ? K' M' H1|? ? ? ? N' H1]; subst.
    + assert (Y := command_det _ _ _ _ _ K K'). injection Y as <- <- <-.
      rewrite (moves_det _ _ _ _ _ M M') in IH. now apply IH.
    + elim (N' _ _ _ _ K M).
  - inversion H' as [|? ? name' pos' nd' ? b1 ? K' M' H1|? ? ? ? N' H1]; subst; [elim (N _ _ _ _ K' M')|now apply IH].
Qed.
End Table.
