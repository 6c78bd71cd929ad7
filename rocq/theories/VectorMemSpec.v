(** What a program with Vector objects means: every vector is a sequence. *)
From Coq Require Import PeanoNat List.
From Verif Require Import Base VectorMem.
Import ListNotations.

Section VectorMemSpec.
Context {V : Type}.
Variable dflt : V.
Variable sizeT W : nat.

Definition vectors := nat -> option (list V).

Definition vupd (a : vectors) (i : nat) (c : option (list V)) : vectors :=
  fun j => if Nat.eqb j i then c else a j.

(** [n] elements fit in the address space. *)
Definition fits (n : nat) : Prop := n * sizeT < W.

(** [vmeans a o a']: [o] is a proper use and turns [a] into [a'].  A vector that
    has been moved from is an empty vector.  pushBack may ask for storage for
    half as many elements again. *)
Inductive vmeans (a : vectors) : vop V -> vectors -> Prop :=
| VM_make : forall i n, a i = None -> fits n -> vmeans a (VMake i n) (vupd a i (Some []))
| VM_range : forall i l, a i = None -> fits (length l) ->
    vmeans a (VRange i l) (vupd a i (Some l))
| VM_copy : forall i j l, a i = None -> a j = Some l ->
    vmeans a (VCopy i j) (vupd a i (Some l))
| VM_move : forall i j l, a i = None -> a j = Some l ->
    vmeans a (VMove i j) (vupd (vupd a j (Some [])) i (Some l))
| VM_assign : forall i j l m, a i = Some l -> a j = Some m ->
    vmeans a (VAssign i j) (vupd a i (Some m))
| VM_assign_move : forall i j l m, a i = Some l -> a j = Some m ->
    vmeans a (VAssignMove i j) (vupd (vupd a j (Some l)) i (Some m))
| VM_destroy : forall i l, a i = Some l -> vmeans a (VDestroy i) (vupd a i None)
| VM_reserve : forall i l n, a i = Some l -> fits n ->
    vmeans a (VReserve i n) (vupd a i (Some l))
| VM_resize : forall i l n, a i = Some l -> fits n ->
    vmeans a (VResize i n) (vupd a i (Some (firstn n l ++ repeat dflt (n - length l))))
| VM_push : forall i l v, a i = Some l -> fits (3 * S (length l) / 2) ->
    vmeans a (VPush i v) (vupd a i (Some (l ++ [v])))
| VM_push_elem : forall i j k l m v, a i = Some l -> a j = Some m -> nth_error m k = Some v ->
    fits (3 * S (length l) / 2) ->
    vmeans a (VPushElem i j k) (vupd a i (Some (l ++ [v])))
| VM_pop : forall i l v, a i = Some (l ++ [v]) -> vmeans a (VPop i) (vupd a i (Some l))
| VM_clear : forall i l, a i = Some l -> vmeans a (VClear i) (vupd a i (Some []))
| VM_set : forall i l x r v, a i = Some (l ++ x :: r) ->
    vmeans a (VSet i (length l) v) (vupd a i (Some (l ++ v :: r))).

Inductive vprogram : vectors -> list (vop V) -> vectors -> Prop :=
| VP_nil : forall a, vprogram a [] a
| VP_cons : forall a o a' os a'',
    vmeans a o a' -> vprogram a' os a'' -> vprogram a (o :: os) a''.

Definition no_vectors : vectors := fun _ => None.

End VectorMemSpec.
