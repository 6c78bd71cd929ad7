(** Several Bindings objects and the moves between them: Bindings(Bindings&&) and
    operator=(Bindings&&), src/Coil.cpp:191-194, both defaulted, and with them the
    implicit moves of UnorderedMap (include/coil/detail/UnorderedMap.h).

    Simplified: a command is a value of any type [V], and execution is the lookup it
    starts with; Exec.v has the rest.  m_maxLoadFactor is 1 in every object and copied. *)
From Coq Require Import ZArith Bool PeanoNat List.
From Verif Require Import Base UMap Lifetimes.
Import ListNotations.

Section Moves.
Context {K V L : Type}.
Variable keqb : K -> K -> bool.
Variable hash : K -> Z.
(** What makeUnique<DefaultLexer>() makes, src/Coil.cpp:190. *)
Variable default_lexer : L.

(** Vector(Vector&&), Vector.h:88, by Buffer(Buffer&&), src/Buffer.cpp:17-20: a new
    Buffer exchanged with the argument.  P_VectorMem.v has it on memory. *)
Definition vec_move {A} (rhs : list A) : list A * list A := (rhs, []).
(** operator=(Vector&&), Vector.h:104, by operator=(Buffer&&), src/Buffer.cpp:40-44. *)
Definition vec_assign {A} (this rhs : list A) : list A * list A := (rhs, this).

(** UniquePtr(UniquePtr&&) and operator=(UniquePtr&&), UniquePtr.h:13-16, 23-27. *)
Definition ptr_move (rhs : option L) : option L * option L := (rhs, None).
Definition ptr_assign (this rhs : option L) : option L * option L := (rhs, this).

(** The implicit UnorderedMap(UnorderedMap&&): the new map and the argument afterwards. *)
Definition map_move (rhs : umap K V) : umap K V * umap K V :=
  let b := vec_move (buckets rhs) in
  let n := vec_move (nodes rhs) in
  (UMap (fst b) (fst n), UMap (snd b) (snd n)).

(** The implicit operator=(UnorderedMap&&). *)
Definition map_assign (this rhs : umap K V) : umap K V * umap K V :=
  let b := vec_assign (buckets this) (buckets rhs) in
  let n := vec_assign (nodes this) (nodes rhs) in
  (UMap (fst b) (fst n), UMap (snd b) (snd n)).

(** The members of Bindings, Bindings.h:59-61. *)
Record bindings := Bindings { b_lexer : option L; b_commands : umap K V }.

(** Bindings(), src/Coil.cpp:190. *)
Definition b_new : bindings := Bindings (Some default_lexer) empty_map.

(** Bindings(Bindings&&), src/Coil.cpp:191. *)
Definition b_move (rhs : bindings) : bindings * bindings :=
  let l := ptr_move (b_lexer rhs) in
  let m := map_move (b_commands rhs) in
  (Bindings (fst l) (fst m), Bindings (snd l) (snd m)).

(** operator=(Bindings&&), src/Coil.cpp:194. *)
Definition b_assign (this rhs : bindings) : bindings * bindings :=
  let l := ptr_assign (b_lexer this) (b_lexer rhs) in
  let m := map_assign (b_commands this) (b_commands rhs) in
  (Bindings (fst l) (fst m), Bindings (snd l) (snd m)).

(** setLexer, src/Coil.cpp:196-199; the old lexer goes with the parameter. *)
Definition b_setLexer (b : bindings) (l : option L) : bindings :=
  Bindings (fst (ptr_assign (b_lexer b) l)) (b_commands b).

(** m_lexer-> in execute(StringView), src/Coil.cpp:250, with the assertion of
    UniquePtr.h:62-65. *)
Definition b_useLexer (b : bindings) : outcome L :=
  match b_lexer b with Some l => Done l | None => Fault AssertFailed end.

(** get, src/Coil.cpp:226-233; execute starts with the same lookup, 271. *)
Definition b_get (b : bindings) (k : K) : outcome (option V) := find keqb hash (b_commands b) k.

Inductive bop :=
| BNew (i : nat)
| BMove (i j : nat)              (* Bindings i{move(j)} *)
| BAssign (i j : nat)            (* i = move(j) *)
| BSetLexer (i : nat) (l : option L)
| BDo (i : nat) (o : op K V)     (* add, remove, clear *)
| BDestroy (i : nat).

Definition bstep (w : vars bindings) (o : bop) : outcome (vars bindings) :=
  match o with
  | BNew i => _ <- var_free w i ;; Done (var_put w i (Some b_new))
  | BMove i j =>
      _ <- var_free w i ;; b <- var_get w j ;;
      Done (var_put (var_put w j (Some (snd (b_move b)))) i (Some (fst (b_move b))))
  | BAssign i j =>
      a <- var_get w i ;; b <- var_get w j ;;
      Done (var_put (var_put w j (Some (snd (b_assign a b)))) i (Some (fst (b_assign a b))))
  | BSetLexer i l => b <- var_get w i ;; Done (var_put w i (Some (b_setLexer b l)))
  | BDo i o =>
      b <- var_get w i ;;
      m <- step keqb hash (b_commands b) o ;;
      Done (var_put w i (Some (Bindings (b_lexer b) m)))
  | BDestroy i => _ <- var_get w i ;; Done (var_put w i None)
  end.

Fixpoint bruns (w : vars bindings) (os : list bop) : outcome (vars bindings) :=
  match os with
  | [] => Done w
  | o :: os => w' <- bstep w o ;; bruns w' os
  end.
End Moves.
Arguments bindings : clear implicits.
Arguments bop : clear implicits.
