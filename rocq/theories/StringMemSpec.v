(** What a program with String objects means, without memory.

    A String holds bytes, some of which may be unspecified ([None]: the bytes
    that resize adds); or it is [Gone]: moved from and not written since; or it
    is [Hollow]: a [Gone] string for which storage has been reserved, or a copy of
    such a string.  Neither of the last two has characters; cStr() is null for
    the former, and not null but of unknown content for the latter. *)
From Coq Require Import Ascii PeanoNat List.
From Verif Require Import Base StringMem.
Import ListNotations.

Inductive content : Type :=
| Gone
| Hollow
| Chars (l : list (option byte)).

Definition chars (c : content) : list (option byte) :=
  match c with Gone => [] | Hollow => [] | Chars l => l end.

Definition reserved (c : content) : content :=
  match c with Gone => Hollow | _ => c end.

Definition strings := nat -> option content.

Definition upd (a : strings) (i : nat) (c : option content) : strings :=
  fun j => if Nat.eqb j i then c else a j.

Definition known (l : bytes) : list (option byte) := map Some l.

(** [src] is a C string [l] followed by its terminator. *)
Definition c_string (src l : bytes) : Prop :=
  exists r, src = l ++ NUL :: r /\ ~ In NUL l.

(** [smeans W a o a']: the operation [o] is a proper use of the objects, and
    turns the strings [a] into [a'].  Proper use means: variables are alive (or
    unused, for a construction), indices are in range, the source of an append
    is not a part of the target, no characters are taken from a [Gone] string,
    and the result and its terminator fit in the address space of [W] bytes. *)
Inductive smeans (W : nat) (a : strings) : sop -> strings -> Prop :=
| M_make : forall i src n,
    a i = None -> n <= length src -> S n < W ->
    smeans W a (SMake i src n) (upd a i (Some (Chars (known (firstn n src)))))
| M_make_c : forall i src l,
    a i = None -> c_string src l -> S (length l) < W ->
    smeans W a (SMakeC i src) (upd a i (Some (Chars (known l))))
| M_make_view : forall i j c pre l post,
    a i = None -> a j = Some c -> c <> Gone -> chars c = pre ++ l ++ post ->
    smeans W a (SMakeView i j (length pre) (length l)) (upd a i (Some (Chars l)))
| M_copy : forall i j c,
    a i = None -> a j = Some c -> c <> Gone ->
    smeans W a (SCopy i j) (upd a i (Some c))
| M_move : forall i j c,
    a i = None -> a j = Some c ->
    smeans W a (SMove i j) (upd (upd a j (Some Gone)) i (Some c))
| M_assign : forall i j c d,
    a i = Some c -> a j = Some d -> d <> Gone ->
    smeans W a (SAssign i j) (upd a i (Some d))
| M_assign_move : forall i j c d,
    a i = Some c -> a j = Some d ->
    smeans W a (SAssignMove i j) (upd (upd a j (Some c)) i (Some d))
| M_destroy : forall i c,
    a i = Some c ->
    smeans W a (SDestroy i) (upd a i None)
| M_reserve : forall i c n,
    a i = Some c -> S n < W ->
    smeans W a (SReserve i n) (upd a i (Some (reserved c)))
| M_resize : forall i c n,
    a i = Some c -> S n < W ->
    smeans W a (SResize i n)
      (upd a i (Some (Chars (firstn n (chars c) ++ repeat None (n - length (chars c))))))
| M_fill : forall i pre mid l post,
    a i = Some (Chars (pre ++ mid ++ post)) -> length mid = length l ->
    smeans W a (SFill i (length pre) l) (upd a i (Some (Chars (pre ++ known l ++ post))))
| M_append : forall i c src n,
    a i = Some c -> n <= length src -> S (length (chars c) + n) < W ->
    smeans W a (SAppend i src n)
      (upd a i (Some (Chars (chars c ++ known (firstn n src)))))
| M_append_c : forall i c src l,
    a i = Some c -> c_string src l -> S (length (chars c) + length l) < W ->
    smeans W a (SAppendC i src) (upd a i (Some (Chars (chars c ++ known l))))
| M_append_char : forall i c b,
    a i = Some c -> S (length (chars c) + 1) < W ->
    smeans W a (SAppendChar i b) (upd a i (Some (Chars (chars c ++ known [b]))))
| M_append_view : forall i j c d pre l post,
    i <> j -> a i = Some c -> a j = Some d -> d <> Gone -> chars d = pre ++ l ++ post ->
    S (length (chars c) + length l) < W ->
    smeans W a (SAppendView i j (length pre) (length l))
      (upd a i (Some (Chars (chars c ++ l))))
| M_append_str : forall i j c d,
    i <> j -> a i = Some c -> a j = Some d -> d <> Gone ->
    S (length (chars c) + length (chars d)) < W ->
    smeans W a (SAppendStr i j) (upd a i (Some (Chars (chars c ++ chars d)))).

Inductive sprogram (W : nat) : strings -> list sop -> strings -> Prop :=
| P_nil : forall a, sprogram W a [] a
| P_cons : forall a o a' os a'',
    smeans W a o a' -> sprogram W a' os a'' -> sprogram W a (o :: os) a''.

Definition no_strings : strings := fun _ => None.
