(** What a program with String objects means when memory can run out: an
    operation that throws leaves all strings as they were. *)
From Coq Require Import Ascii PeanoNat List.
From Verif Require Import Base Mem StringMem StringMemSpec StringThrow.
Import ListNotations.

Section StringThrowSpec.
Variable W : nat.

(** [operand a r l]: the right operand [r] of + has the characters [l]. *)
Inductive operand (a : strings) : rhs -> list (option byte) -> Prop :=
| O_char : forall c, operand a (RChar c) (known [c])
| O_cstring : forall src l, c_string src l -> operand a (RCString src) (known l)
| O_string : forall k d, a k = Some d -> d <> Gone -> operand a (RString k) (chars d)
| O_view : forall k d pre l post, a k = Some d -> d <> Gone -> chars d = pre ++ l ++ post ->
    operand a (RView k (length pre) (length l)) l.

(** Proper use, and the result if nothing throws. *)
Inductive means (a : strings) : yop -> strings -> Prop :=
| Y_op : forall o a', smeans W a o a' -> means a (YOp o) a'
| Y_plus : forall i j r c l,
    a i = None -> a j = Some c -> c <> Gone -> operand a r l ->
    S (length (chars c) + length l) < W ->
    means a (YPlus i j r) (upd a i (Some (Chars (chars c ++ l))))
| Y_logline : forall i j c d,
    i <> j -> a i = Some c -> a j = Some d -> d <> Gone ->
    S (length (chars c) + length (chars d) + 1) < W ->
    means a (YLogline i j)
      (upd a i (Some (Chars (chars c ++ chars d ++ known [ascii_of_nat 10])))).

(** The operations that never throw. *)
Definition never_throws (o : yop) : Prop :=
  match o with
  | YOp (SMove _ _) | YOp (SAssignMove _ _) | YOp (SDestroy _) | YOp (SFill _ _ _) => True
  | _ => False
  end.

(** A program that uses its strings properly, whatever throws. *)
Inductive proper : strings -> yprog -> Prop :=
| P_end : forall a, proper a YEnd
| P_do : forall a o a' next,
    means a o a' -> proper a' (next false) -> (~ never_throws o -> proper a (next true)) ->
    proper a (YDo o next).

(** [ends a p trace a']: the operations of [p] throw or not as [trace] says, and
    turn [a] into [a']. *)
Inductive ends : strings -> yprog -> list bool -> strings -> Prop :=
| E_end : forall a, ends a YEnd [] a
| E_ok : forall a o a' next tr a'', means a o a' -> ends a' (next false) tr a'' ->
    ends a (YDo o next) (false :: tr) a''
| E_throw : forall a o next tr a'', ~ never_throws o -> ends a (next true) tr a'' ->
    ends a (YDo o next) (true :: tr) a''.

(** The memory asked for so that [x] can have [n] characters: none if its storage
    suffices. *)
Definition room (x : str) (n : nat) : list nat := if n <? m_capacity x then [] else [S n].

(** The number of characters of an operand. *)
Inductive operand_length (strs : nat -> option str) : rhs -> nat -> Prop :=
| L_char : forall c, operand_length strs (RChar c) 1
| L_cstring : forall src l, c_string src l -> operand_length strs (RCString src) (length l)
| L_string : forall k z, strs k = Some z -> operand_length strs (RString k) (str_length z)
| L_view : forall k off n, operand_length strs (RView k off n) n.

(** The memory that an operation asks for if it does not throw, the latest request
    first. *)
Inductive asks (strs : nat -> option str) : yop -> list nat -> Prop :=
| K_make : forall i src n, asks strs (YOp (SMake i src n)) [S n]
| K_make_c : forall i src l, c_string src l -> asks strs (YOp (SMakeC i src)) [S (length l)]
| K_make_view : forall i j off n, asks strs (YOp (SMakeView i j off n)) [S n]
| K_copy : forall i j y, strs j = Some y -> asks strs (YOp (SCopy i j)) [m_capacity y]
| K_assign : forall i j y, strs j = Some y -> asks strs (YOp (SAssign i j)) [m_capacity y]
| K_reserve : forall i x n, strs i = Some x -> asks strs (YOp (SReserve i n)) (room x n)
| K_resize : forall i x n, strs i = Some x -> asks strs (YOp (SResize i n)) (room x n)
| K_append : forall i x src n, strs i = Some x ->
    asks strs (YOp (SAppend i src n)) (room x (str_length x + n))
| K_append_c : forall i x src l, strs i = Some x -> c_string src l ->
    asks strs (YOp (SAppendC i src)) (room x (str_length x + length l))
| K_append_char : forall i x c, strs i = Some x ->
    asks strs (YOp (SAppendChar i c)) (room x (str_length x + 1))
| K_append_view : forall i x j off n, strs i = Some x ->
    asks strs (YOp (SAppendView i j off n)) (room x (str_length x + n))
| K_append_str : forall i x j y, strs i = Some x -> strs j = Some y ->
    asks strs (YOp (SAppendStr i j)) (room x (str_length x + str_length y))
| K_never : forall o, never_throws o -> asks strs o []
| K_logline : forall i x j y, strs i = Some x -> strs j = Some y ->
    asks strs (YLogline i j) (room x (str_length x + str_length y + 1))
(** y + z: a copy of y, perhaps a bigger one with z added, and a copy of that. *)
| K_plus : forall i j y r n, strs j = Some y -> operand_length strs r n ->
    asks strs (YPlus i j r)
      (if str_length y + n <? m_capacity y then [m_capacity y; m_capacity y]
       else [S (str_length y + n); S (str_length y + n); m_capacity y]).

End StringThrowSpec.
