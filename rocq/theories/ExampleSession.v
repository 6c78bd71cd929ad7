(** Programs like those in examples/: commands are registered once, then texts are executed. *)
From Coq Require Import Ascii String NArith ZArith Bool PeanoNat List.
Import ListNotations.
From Verif Require Import Util Base Lexer Exec.

Section Session.
Context {W F : Type}.
Variable code : F -> functor W F.
(** Handlers of Exec.v have no operation that fails by itself: one with undefined behaviour notes
    that in the state of the program, where the session stops. *)
Variable wrong_in : W -> option fault.
Variables sg catching : bool.
Variable d : nat.

(** common::executeCommand for each text, examples/common/ExamplesCommon.cpp:27-43, without what it
    prints: the results in order.  An exception that execute lets through ends the program; that is
    [AssertFailed] here. *)
Fixpoint session (s : state W F) (lines : list bytes) : outcome (state W F * list result) :=
  match lines with
  | [] => Done (s, [])
  | c :: lines =>
      r <- exec_text code sg catching d s c ;;
      match snd r, wrong_in (s_world (fst r)) with
      | inr _, _ => Fault AssertFailed
      | inl _, Some f => Fault f
      | inl x, None =>
          q <- session (fst r) lines ;;
          Done (fst q, x :: snd q)
      end
  end.
End Session.
