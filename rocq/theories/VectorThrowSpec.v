(** What a program with Vector objects means when operations may throw: every
    vector is a sequence, and an operation that throws leaves all of them as they
    were, except that resize may already have added some elements. *)
From Coq Require Import PeanoNat List.
From Verif Require Import Base Mem VectorMem VectorMemSpec VectorThrow.
Import ListNotations.

Section VectorThrowSpec.
Context {V : Type}.
Variable dflt : V.
Variable sizeT W : nat.
Local Notation vmeans := (vmeans dflt sizeT W).

(** [throwing o a a']: [o] has been left by an exception. *)
Inductive throwing (a : vectors) : vop V -> vectors -> Prop :=
| T_make : forall i n, throwing a (VMake i n) a
| T_range : forall i l, throwing a (VRange i l) a
| T_copy : forall i j, throwing a (VCopy i j) a
| T_assign : forall i j, throwing a (VAssign i j) a
| T_reserve : forall i n, throwing a (VReserve i n) a
| T_push : forall i v, throwing a (VPush i v) a
| T_push_elem : forall i j k, throwing a (VPushElem i j k) a
| T_resize : forall i n l k, a i = Some l -> length l + k < n ->
    throwing a (VResize i n) (vupd a i (Some (l ++ repeat dflt k))).

(** A program that uses its vectors properly, whatever throws. *)
Inductive proper : vectors -> xprog V -> Prop :=
| P_end : forall a, proper a XEnd
| P_do : forall a o a' next,
    vmeans a o a' -> proper a' (next false) ->
    (forall a'', throwing a o a'' -> proper a'' (next true)) ->
    proper a (XDo o next).

(** [ends a p trace a']: the operations of [p] throw or not as [trace] says, and
    turn [a] into [a']. *)
Inductive ends : vectors -> xprog V -> list bool -> vectors -> Prop :=
| E_end : forall a, ends a XEnd [] a
| E_ok : forall a o a' next tr a'', vmeans a o a' -> ends a' (next false) tr a'' ->
    ends a (XDo o next) (false :: tr) a''
| E_throw : forall a o a' next tr a'', throwing a o a' -> ends a' (next true) tr a'' ->
    ends a (XDo o next) (true :: tr) a''.

(** The allocation of a Buffer for [n] elements. *)
Definition storage (n : nat) : list call := if 0 <? n * sizeT mod W then [NewStorage] else [].

(** The calls of an operation that does not throw, the latest first: what the
    vectors [vecs] have in size and capacity decides. *)
Inductive calls_of (vecs : nat -> option (vec V)) : vop V -> list call -> Prop :=
| K_make : forall i n, calls_of vecs (VMake i n) (storage n)
| K_range : forall i l, calls_of vecs (VRange i l) (repeat CopyT (length l) ++ storage (length l))
| K_copy : forall i j y, vecs j = Some y ->
    calls_of vecs (VCopy i j) (repeat CopyT (m_size y) ++ storage (m_size y))
| K_assign : forall i j y, vecs j = Some y ->
    calls_of vecs (VAssign i j) (repeat CopyT (m_size y) ++ storage (m_size y))
| K_reserve : forall i x n, vecs i = Some x -> m_capacity x < n ->
    calls_of vecs (VReserve i n) (repeat MoveT (m_size x) ++ storage n)
| K_reserved : forall i x n, vecs i = Some x -> n <= m_capacity x -> calls_of vecs (VReserve i n) []
| K_resize : forall i x n, vecs i = Some x -> m_capacity x < n ->
    calls_of vecs (VResize i n)
      (repeat DefaultT (n - m_size x) ++ repeat MoveT (m_size x) ++ storage n)
| K_resize_in_place : forall i x n, vecs i = Some x -> n <= m_capacity x ->
    calls_of vecs (VResize i n) (repeat DefaultT (n - m_size x))
| K_push : forall i x v n, vecs i = Some x -> m_capacity x <= m_size x -> m_size x < n ->
    calls_of vecs (VPush i v) (MoveT :: repeat MoveT (m_size x) ++ storage n ++ [CopyT])
| K_push_in_place : forall i x v, vecs i = Some x -> m_size x < m_capacity x ->
    calls_of vecs (VPush i v) [MoveT; CopyT]
| K_push_elem : forall i x j k n, vecs i = Some x -> m_capacity x <= m_size x -> m_size x < n ->
    calls_of vecs (VPushElem i j k) (MoveT :: repeat MoveT (m_size x) ++ storage n ++ [CopyT])
| K_push_elem_in_place : forall i x j k, vecs i = Some x -> m_size x < m_capacity x ->
    calls_of vecs (VPushElem i j k) [MoveT; CopyT]
| K_move : forall i j, calls_of vecs (VMove i j) []
| K_assign_move : forall i j, calls_of vecs (VAssignMove i j) []
| K_destroy : forall i, calls_of vecs (VDestroy i) []
| K_pop : forall i, calls_of vecs (VPop i) []
| K_clear : forall i, calls_of vecs (VClear i) []
| K_set : forall i k v, calls_of vecs (VSet i k v) [].

End VectorThrowSpec.
