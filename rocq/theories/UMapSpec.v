(** Specification of the map: what a sequence of operations should do, and a small
    abstract machine that describes in which histories erase is harmless. *)
From Coq Require Import Ascii String NArith ZArith Bool PeanoNat List.
Import ListNotations.
From Verif Require Import Util Base UMap.

Section Spec.
Context {K V : Type}.
Variable keqb : K -> K -> bool.
Variable hash : K -> Z.

(** ** The ideal map *)

Definition ideal_step (f : K -> option V) (o : op K V) : K -> option V :=
  match o with
  | Add k v => fun x => if keqb x k then Some v else f x
  | Remove k => fun x => if keqb x k then None else f x
  | Clear => fun _ => None
  end.

Definition ideal (h : list (op K V)) : K -> option V :=
  fold_left ideal_step h (fun _ => None).

(** ** Positions

    Where the live keys are: [slots] is the order of the node array, [order] the order in
    which they were last linked into the bucket chains, [width] the number of buckets,
    [stale] the keys whose back link has not been updated. *)
Record shape := Shape { slots : list K; order : list K; stale : list K; width : nat }.

Definition memb (k : K) (l : list K) : bool := existsb (keqb k) l.
Definition without (k : K) (l : list K) : list K := filter (fun x => negb (keqb x k)) l.

(** Same bucket. *)
Definition collide (w : nat) (a b : K) : bool :=
  (hash a mod Z.of_nat w =? hash b mod Z.of_nat w)%Z.

Fixpoint after (k : K) (l : list K) : list K :=
  match l with
  | [] => []
  | x :: r => if keqb x k then r else after k r
  end.

(** The key linked right after [k] in its bucket. *)
Definition next_of (s : shape) (k : K) : option K :=
  hd_error (filter (collide (width s) k) (after k (order s))).

Definition olist {A} (o : option A) : list A := match o with Some x => [x] | None => [] end.
Definition without_opt (o : option K) (l : list K) : list K :=
  match o with Some k => without k l | None => l end.

(** The last slot moves into the freed one. *)
Definition fill (k last : K) (l : list K) : list K :=
  map (fun x => if keqb x k then last else x) (removelast l).

Definition shape0 : shape := Shape [] [] [] 1.

Definition shape_add (s : shape) (k : K) : shape :=
  if memb k (slots s) then s
  else
    let s1 := if load_exceeds (S (length (slots s))) (width s)
              then Shape (slots s) (slots s) [] (length (slots s) * 2) else s in
    Shape (slots s1 ++ [k]) (order s1 ++ [k]) (stale s1) (width s1).

Definition shape_remove (s : shape) (k : K) : shape :=
  if memb k (slots s) then
    let l := last (slots s) k in
    let stale1 := without_opt (next_of s k) (without k (stale s)) in
    let order1 := without k (order s) in
    if keqb l k then Shape (removelast (slots s)) order1 stale1 (width s)
    else Shape (fill k l (slots s)) order1
               (olist (next_of (Shape (slots s) order1 stale1 (width s)) l) ++ stale1) (width s)
  else s.

Definition shape_step (s : shape) (o : op K V) : shape :=
  match o with
  | Add k _ => shape_add s k
  | Remove k => shape_remove s k
  | Clear => Shape [] [] [] (width s)
  end.

(** A removal is harmless if neither the removed key nor the key in the last slot has a
    stale back link. *)
Definition harmless (s : shape) (o : op K V) : Prop :=
  match o with
  | Remove k =>
      In k (slots s) -> ~ In k (stale s) /\ (last (slots s) k <> k -> ~ In (last (slots s) k) (stale s))
  | _ => True
  end.

Fixpoint harmless_from (s : shape) (h : list (op K V)) : Prop :=
  match h with
  | [] => True
  | o :: h => harmless s o /\ harmless_from (shape_step s o) h
  end.

Definition harmless_history (h : list (op K V)) : Prop := harmless_from shape0 h.

(** ** Classes of histories stated without positions *)

Definition is_remove (o : op K V) : bool := match o with Remove _ => true | _ => false end.

Definition no_removals (h : list (op K V)) : Prop := forall o, In o h -> is_remove o = false.

(** Live keys, most recently added first. *)
Definition stack_step (st : list K) (o : op K V) : list K :=
  match o with
  | Add k _ => if memb k st then st else k :: st
  | Remove k => without k st
  | Clear => []
  end.

Fixpoint lifo_from (st : list K) (h : list (op K V)) : Prop :=
  match h with
  | [] => True
  | o :: h =>
      match o with Remove k => In k st -> hd_error st = Some k | _ => True end /\
      lifo_from (stack_step st o) h
  end.

(** Each removal concerns an unknown key or the most recently added live one. *)
Definition lifo (h : list (op K V)) : Prop := lifo_from [] h.

(** At most [n] removals of live keys in a row without a clear. *)
Fixpoint few_removals_from (n left : nat) (st : list K) (h : list (op K V)) : Prop :=
  match h with
  | [] => True
  | o :: h =>
      match o with
      | Remove k =>
          if memb k st then
            match left with O => False | S l => few_removals_from n l (stack_step st o) h end
          else few_removals_from n left (stack_step st o) h
      | Add _ _ => few_removals_from n left (stack_step st o) h
      | Clear => few_removals_from n n (stack_step st o) h
      end
  end.
Definition few_removals (n : nat) (h : list (op K V)) : Prop := few_removals_from n n [] h.

(** ** Full-map consequences *)

(** Every name resolves as in the ideal map. *)
Definition faithful (m : umap K V) (h : list (op K V)) : Prop :=
  forall k, find keqb hash m k = Done (ideal h k).

(** At every point of the history the live keys are in pairwise different buckets. *)
Definition collision_free (h : list (op K V)) : Prop :=
  forall p q m, h = p ++ q -> run keqb hash p = Done m ->
  forall a b, ideal p a <> None -> ideal p b <> None -> a <> b ->
  (hash a mod Z.of_nat (length (buckets m)) <> hash b mod Z.of_nat (length (buckets m)))%Z.

(** What iterating should give: each live key once, with its value. *)
Definition lists_contents (l : list (K * V)) (f : K -> option V) : Prop :=
  NoDup (map fst l) /\ forall k v, In (k, v) l <-> f k = Some v.
End Spec.
Arguments shape : clear implicits.
