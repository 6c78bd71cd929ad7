(** What the work of the registry is compared with, stated without its buckets, chains
    and nodes. *)
From Coq Require Import Ascii String NArith ZArith Bool PeanoNat List.
Import ListNotations.
From Verif Require Import Util Base UMap UMapSpec UMapCost.

Section Spec.
  Context {K V : Type}.
  Variable keqb : K -> K -> bool.
  Variable hash : K -> Z.

  (** Numbers of operations in a history. *)
  Definition is_add (o : op K V) : bool := match o with Add _ _ => true | _ => false end.
  Definition is_clear (o : op K V) : bool := match o with Clear => true | _ => false end.
  Definition adds (h : list (op K V)) : nat := length (filter is_add h).
  Definition clears (h : list (op K V)) : nat := length (filter is_clear h).
  Definition removals (h : list (op K V)) : nat := length (filter is_remove h).

  (** The registered keys, in the order in which they were first added. *)
  Definition register (l : list K) (o : op K V) : list K :=
    match o with
    | Add k _ => if existsb (fun x => keqb x k) l then l else l ++ [k]
    | Remove k => filter (fun x => negb (keqb x k)) l
    | Clear => []
    end.
  Definition registered (h : list (op K V)) : list K := fold_left register h [].

  (** The keys of [l] that share a place with [k] in a table with [w] places. *)
  Definition rivals (w : nat) (k : K) (l : list K) : list K :=
    filter (fun x => Z.eqb (hash x mod Z.of_nat w) (hash k mod Z.of_nat w)) l.

  (** Comparisons needed to search [l] from the front for [k]. *)
  Fixpoint position (k : K) (l : list K) : nat :=
    match l with
    | [] => 0
    | x :: r => if keqb x k then 1 else S (position k r)
    end.

  (** Steps needed to put the keys [todo], one after the other, at the end of the list of
      those before them with which they share a place. *)
  Fixpoint append_all (w : nat) (before todo : list K) : nat :=
    match todo with
    | [] => 0
    | k :: r => length (rivals w k before) + append_all w (before ++ [k]) r
    end.

  (** The work of adding [k] to a table with [w] places that holds [l].  A key that is
      there is searched for.  A new key is compared with all its rivals and put behind
      them; if the table is full, all keys are first put into one with twice as many
      places as there are keys. *)
  Definition add_work (w : nat) (l : list K) (k : K) : work :=
    if existsb (fun x => keqb x k) l then Work 1 (position k (rivals w k l)) 0 0 0
    else if load_exceeds (S (length l)) w
    then Work (2 + length l) (length (rivals w k l))
              (append_all (2 * length l) [] (l ++ [k])) (length l) (2 * length l)
    else Work 2 (length (rivals w k l)) (length (rivals w k l)) 0 0.
End Spec.

(** Names with the same hash value: two spellings of each pair of characters. *)
Fixpoint namesakes (n : nat) : list bytes :=
  match n with
  | O => [[]]
  | S n => map (fun s => lit "ab" ++ s) (namesakes n) ++ map (fun s => lit "bA" ++ s) (namesakes n)
  end.
