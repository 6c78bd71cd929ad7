(** List lemmas missing from the standard library of this Coq version. *)
From Coq Require Import PeanoNat Lia List Bool.
Import ListNotations.

Lemma nth_error_firstn_lt : forall (A : Type) (n : nat) (l : list A) i,
  i < n -> nth_error (firstn n l) i = nth_error l i.
Proof.
  induction n as [|n IH]; intros l i Hi; [lia|].
  destruct l as [|x l]; [reflexivity|]. destruct i as [|i]; [reflexivity|].
  cbn. apply IH. lia.
Qed.

Lemma nth_error_skipn_add : forall (A : Type) (n : nat) (l : list A) i,
  nth_error (skipn n l) i = nth_error l (n + i).
Proof.
  induction n as [|n IH]; intros l i; [reflexivity|].
  destruct l as [|x l]; [destruct i; reflexivity|]. cbn. apply IH.
Qed.

Lemma skipn_add : forall (A : Type) (a b : nat) (l : list A),
  skipn (a + b) l = skipn b (skipn a l).
Proof.
  induction a as [|a IH]; intros b l; [reflexivity|].
  destruct l as [|x l]; [destruct b; reflexivity|]. cbn. apply IH.
Qed.

Lemma skipn_length_app : forall (A : Type) (l r : list A), skipn (length l) (l ++ r) = r.
Proof. induction l as [|x l IH]; intros r; [reflexivity|]. cbn. apply IH. Qed.

Lemma firstn_length_app : forall (A : Type) (l r : list A), firstn (length l) (l ++ r) = l.
Proof. induction l as [|x l IH]; intros r; [reflexivity|]. cbn. now rewrite IH. Qed.

(** The longest prefix satisfying [p]. *)
Lemma span_exists : forall (A : Type) (p : A -> bool) (l : list A),
  exists pre rest, l = pre ++ rest /\ (forall x, In x pre -> p x = true) /\
                   match rest with [] => True | x :: _ => p x = false end.
Proof.
  intros A p l. induction l as [|x l (pre & rest & -> & H1 & H2)].
  - exists [], []. cbn. intuition.
  - destruct (p x) eqn:Hx.
    + exists (x :: pre), rest. split; [reflexivity|]. split; [|assumption].
      intros y [<-|Hy]; auto.
    + exists [], (x :: pre ++ rest). cbn. intuition.
Qed.
