(** What programs with several Bindings objects mean: every object has a history of its
    own, or has been moved from. *)
From Coq Require Import ZArith Bool PeanoNat List.
From Verif Require Import Base UMap UMapSpec Moves.
Import ListNotations.

Section MovesSpec.
Context {K V L : Type}.
Variable keqb : K -> K -> bool.
Variable hash : K -> Z.
Variable default_lexer : L.

(** The registry of an object: what was done to it, or nothing usable. *)
Inductive content := Holds (h : list (op K V)) | Husk.
Definition objects := nat -> option (option L * content).

Definition bset (a : objects) (i : nat) (c : option (option L * content)) : objects :=
  fun j => if Nat.eqb j i then c else a j.

(** Removals must be harmless (C20).  An object that was moved from can only be cleared,
    given a lexer, moved from again, assigned and destroyed. *)
Inductive bmeans (a : objects) : bop K V L -> objects -> Prop :=
| BM_new : forall i, a i = None ->
    bmeans a (BNew i) (bset a i (Some (Some default_lexer, Holds [])))
| BM_move : forall i j c, a i = None -> a j = Some c ->
    bmeans a (BMove i j) (bset (bset a j (Some (None, Husk))) i (Some c))
| BM_assign : forall i j b c, a i = Some b -> a j = Some c ->
    bmeans a (BAssign i j) (bset (bset a j (Some b)) i (Some c))
| BM_setLexer : forall i l l' c, a i = Some (l, c) ->
    bmeans a (BSetLexer i l') (bset a i (Some (l', c)))
| BM_do : forall i o l h, a i = Some (l, Holds h) -> harmless_history keqb hash (h ++ [o]) ->
    bmeans a (BDo i o) (bset a i (Some (l, Holds (h ++ [o]))))
| BM_clear : forall i l, a i = Some (l, Husk) -> bmeans a (BDo i Clear) (bset a i (Some (l, Husk)))
| BM_destroy : forall i b, a i = Some b -> bmeans a (BDestroy i) (bset a i None).

Inductive bprogram : objects -> list (bop K V L) -> objects -> Prop :=
| BP_nil : forall a, bprogram a [] a
| BP_cons : forall a o a' os a'', bmeans a o a' -> bprogram a' os a'' -> bprogram a (o :: os) a''.
End MovesSpec.
Arguments content : clear implicits.
Arguments objects : clear implicits.
