(** Model of coil::UnorderedMap, include/coil/detail/UnorderedMap.h. *)
From Coq Require Import Ascii String NArith ZArith Bool PeanoNat List.
Import ListNotations.
From Verif Require Import Util Base.

(** m_buckets[i] = x (UnorderedMap.h:182, 208, 272, 296) and m_nodes[i] = x for an index inside the
    vector. *)
Fixpoint set_nth {A} (l : list A) (i : nat) (x : A) : list A :=
  match l, i with
  | [], _ => []
  | _ :: r, O => x :: r
  | y :: r, S i => y :: set_nth r i x
  end.

(** Vector::operator[] with its assertion, include/coil/detail/Vector.h:233-245. *)
Definition at_ {A} (l : list A) (i : nat) : outcome A :=
  match nth_error l i with Some x => Done x | None => Fault AssertFailed end.

(** Conversion of a size_t to float: 24 significant bits, to nearest, ties to even. *)
Definition rnd24 (z : Z) : Z :=
  if (z <? 2 ^ 24)%Z then z
  else
    let e := (Z.log2 z - 23)%Z in
    let q := (z / 2 ^ e)%Z in
    let r := (z mod 2 ^ e)%Z in
    let half := (2 ^ (e - 1))%Z in
    if (half <? r)%Z || ((r =? half)%Z && Z.odd q) then ((q + 1) * 2 ^ e)%Z else (q * 2 ^ e)%Z.

(** nextLoadFactor > m_maxLoadFactor with m_maxLoadFactor = 1.0f, UnorderedMap.h:149-150.
    The quotient of two floats rounds to a float above 1 exactly if it exceeds
    1 + 2^-24, half way to the next float (the tie goes to 1). *)
Definition load_exceeds (nextSize nbuckets : nat) : bool :=
  let a := rnd24 (Z.of_nat nextSize) in
  let b := rnd24 (Z.of_nat nbuckets) in
  (b * (2 ^ 24 + 1) <? a * 2 ^ 24)%Z.

Section UMap.
Context {K V : Type}.
Variable keqb : K -> K -> bool.
(** Hash<K>; values of a size_t. *)
Variable hash : K -> Z.

(** UnorderedMap::Node, UnorderedMap.h:41-48.  invalidIndex is [None]; sizes that
    reach the value of invalidIndex are not modelled. *)
Record node := Node {
  n_key : K;
  n_val : V;
  n_bucket : option nat;
  n_prev : option nat;
  n_next : option nat
}.

(** The members m_buckets and m_nodes, UnorderedMap.h:333-334. *)
Record umap := UMap { buckets : list (option nat); nodes : list node }.

Definition set_val (n : node) v := Node (n_key n) v (n_bucket n) (n_prev n) (n_next n).
Definition set_prev (n : node) p := Node (n_key n) (n_val n) (n_bucket n) p (n_next n).
Definition set_next (n : node) x := Node (n_key n) (n_val n) (n_bucket n) (n_prev n) x.

(** m_nodes[i].prev = p and m_nodes[i].next = x, UnorderedMap.h:177, 188, 203, 284 and 285. *)
Definition put_prev (ns : list node) (i : nat) (p : option nat) : outcome (list node) :=
  n <- at_ ns i ;; Done (set_nth ns i (set_prev n p)).
Definition put_next (ns : list node) (i : nat) (x : option nat) : outcome (list node) :=
  n <- at_ ns i ;; Done (set_nth ns i (set_next n x)).

(** computeBucketIndex, UnorderedMap.h:250-255. *)
Definition computeBucketIndex (m : umap) (k : K) : outcome nat :=
  match length (buckets m) with
  | O => Fault DivByZero
  | S _ as n => Done (Z.to_nat (hash k mod Z.of_nat n)%Z)
  end.

(** The loop of findNodeIndex, UnorderedMap.h:314-326.  A walk longer than the number of
    nodes repeats itself forever (find_walk_diverges in UMapMore.v). *)
Fixpoint find_walk (fuel : nat) (ns : list node) (k : K) (cur : option nat)
  : outcome (option nat) :=
  match cur with
  | None => Done None
  | Some i =>
      match fuel with
      | O => Fault Diverges
      | S f =>
          n <- at_ ns i ;;
          if keqb (n_key n) k then Done (Some i) else find_walk f ns k (n_next n)
      end
  end.

(** findNodeIndex, UnorderedMap.h:308-327. *)
Definition findNodeIndex (m : umap) (k : K) : outcome (option nat) :=
  b <- computeBucketIndex m k ;;
  cur <- at_ (buckets m) b ;;
  find_walk (S (length (nodes m))) (nodes m) k cur.

(** find, UnorderedMap.h:226-242; [None] is end(). *)
Definition find (m : umap) (k : K) : outcome (option V) :=
  i <- findNodeIndex m k ;;
  match i with
  | None => Done None
  | Some i => n <- at_ (nodes m) i ;; Done (Some (n_val n))
  end.

(** The loop of insertNode, UnorderedMap.h:276-290. *)
Fixpoint insert_walk (fuel : nat) (ns : list node) (new i : nat) : outcome (list node) :=
  match fuel with
  | O => Fault Diverges
  | S f =>
      n <- at_ ns i ;;
      match n_next n with
      | None =>
          ns1 <- put_next ns i (Some new) ;;
          put_prev ns1 new (Some i)
      | Some j => insert_walk f ns new j
      end
  end.

(** insertNode, UnorderedMap.h:257-291. *)
Definition insertNode (m : umap) (new : nat) : outcome umap :=
  n <- at_ (nodes m) new ;;
  b <- computeBucketIndex m (n_key n) ;;
  first <- at_ (buckets m) b ;;
  let ns := set_nth (nodes m) new (Node (n_key n) (n_val n) (Some b) None None) in
  match first with
  | None => Done (UMap (set_nth (buckets m) b (Some new)) ns)
  | Some i => ns' <- insert_walk (S (length ns)) ns new i ;; Done (UMap (buckets m) ns')
  end.

(** The loop of rehash, UnorderedMap.h:304-305: [todo] nodes remain from [i] on. *)
Fixpoint rehash_loop (todo i : nat) (m : umap) : outcome umap :=
  match todo with
  | O => Done m
  | S t => m' <- insertNode m i ;; rehash_loop t (S i) m'
  end.

(** rehash with resetBuckets, UnorderedMap.h:293-306. *)
Definition rehash (m : umap) (n : nat) : outcome umap :=
  rehash_loop (length (nodes m)) 0 (UMap (repeat None n) (nodes m)).

(** The default constructor, UnorderedMap.h:118-121: one bucket. *)
Definition empty_map : umap := UMap [None] [].

(** insertOrAssign, UnorderedMap.h:140-159. *)
Definition insertOrAssign (m : umap) (k : K) (v : V) : outcome umap :=
  i <- findNodeIndex m k ;;
  match i with
  | Some i =>
      n <- at_ (nodes m) i ;;
      Done (UMap (buckets m) (set_nth (nodes m) i (set_val n v)))
  | None =>
      let nextSize := S (length (nodes m)) in
      m1 <- (if load_exceeds nextSize (length (buckets m))
             then rehash m (length (nodes m) * 2) else Done m) ;;
      let newNodeIndex := length (nodes m1) in
      insertNode (UMap (buckets m1) (nodes m1 ++ [Node k v None None None])) newNodeIndex
  end.

(** Unlinking in erase, UnorderedMap.h:168-192.  [idx] is nodeIndex; erasedNode is a
    reference, so it is read again after each write. *)
Definition unlink (m : umap) (idx : nat) : outcome umap :=
  e <- at_ (nodes m) idx ;;
  match n_bucket e with
  | None => Fault AssertFailed
  | Some eb =>
      head <- at_ (buckets m) eb ;;
      m1 <- (match n_prev e with
             | Some p =>
                 _ <- assert_ (match head with Some h => negb (h =? idx) | None => true end) ;;
                 ns <- put_next (nodes m) p (n_next e) ;;
                 Done (UMap (buckets m) ns)
             | None =>
                 _ <- assert_ (match head with Some h => h =? idx | None => false end) ;;
                 Done (UMap (set_nth (buckets m) eb (n_next e)) (nodes m))
             end) ;;
      e1 <- at_ (nodes m1) idx ;;
      ns2 <- (match n_next e1 with
              | Some n => put_prev (nodes m1) n (n_prev e1)
              | None => Done (nodes m1)
              end) ;;
      ns3 <- put_prev ns2 idx None ;;
      ns4 <- put_next ns3 idx None ;;
      Done (UMap (buckets m1) ns4)
  end.

(** coil::exchange(m_nodes[i], m_nodes[j]), include/coil/detail/Utility.h:25-31. *)
Definition swap_nodes (ns : list node) (i j : nat) : outcome (list node) :=
  a <- at_ ns i ;;
  b <- at_ ns j ;;
  Done (set_nth (set_nth ns i b) j a).

(** Filling the hole with the last node, UnorderedMap.h:194-212. *)
Definition relocate (m : umap) (idx : nat) : outcome umap :=
  match length (nodes m) with
  | O => Fault AssertFailed
  | S last =>
      if idx =? last then Done m
      else
        l <- at_ (nodes m) last ;;
        m1 <- (match n_prev l with
               | Some p => ns <- put_next (nodes m) p (Some idx) ;; Done (UMap (buckets m) ns)
               | None =>
                   match n_bucket l with
                   | None => Fault AssertFailed
                   | Some lb =>
                       _ <- at_ (buckets m) lb ;;
                       Done (UMap (set_nth (buckets m) lb (Some idx)) (nodes m))
                   end
               end) ;;
        ns <- swap_nodes (nodes m1) idx last ;;
        Done (UMap (buckets m1) ns)
  end.

(** popBack with the assertions before it, UnorderedMap.h:214-217. *)
Definition pop_node (m : umap) : outcome umap :=
  match length (nodes m) with
  | O => Fault AssertFailed
  | S last =>
      l <- at_ (nodes m) last ;;
      _ <- assert_ (match n_prev l with None => true | _ => false end) ;;
      _ <- assert_ (match n_next l with None => true | _ => false end) ;;
      Done (UMap (buckets m) (firstn last (nodes m)))
  end.

(** erase, UnorderedMap.h:161-218. *)
Definition erase (m : umap) (k : K) : outcome umap :=
  i <- findNodeIndex m k ;;
  match i with
  | None => Done m
  | Some idx =>
      m1 <- unlink m idx ;;
      m2 <- relocate m1 idx ;;
      pop_node m2
  end.

(** clear, UnorderedMap.h:220-224. *)
Definition clear (m : umap) : umap := UMap (repeat None (length (buckets m))) [].

(** size, UnorderedMap.h:244-247. *)
Definition size (m : umap) : nat := length (nodes m).

(** What iterating from begin() to end() visits, UnorderedMap.h:123-138. *)
Definition iterate (m : umap) : list (K * V) := map (fun n => (n_key n, n_val n)) (nodes m).

(** ** A repaired erase

    NOT the code in the repository: erase with the missing update of the successor of
    the relocated node (the node moved to [idx] must also become the prev of its next
    node). *)
Definition relocate_fixed (m : umap) (idx : nat) : outcome umap :=
  m1 <- relocate m idx ;;
  match nth_error (nodes m1) idx with
  | Some l =>
      if S idx =? length (nodes m1) then Done m1
      else match n_next l with
           | Some n => ns <- put_prev (nodes m1) n (Some idx) ;; Done (UMap (buckets m1) ns)
           | None => Done m1
           end
  | None => Done m1
  end.

Definition erase_fixed (m : umap) (k : K) : outcome umap :=
  i <- findNodeIndex m k ;;
  match i with
  | None => Done m
  | Some idx =>
      m1 <- unlink m idx ;;
      m2 <- relocate_fixed m1 idx ;;
      pop_node m2
  end.

(** ** Histories

    Sequences of insertOrAssign, erase and clear, UnorderedMap.h:140-224. *)

Inductive op := Add (k : K) (v : V) | Remove (k : K) | Clear.

Definition step (m : umap) (o : op) : outcome umap :=
  match o with
  | Add k v => insertOrAssign m k v
  | Remove k => erase m k
  | Clear => Done (clear m)
  end.

Definition step_fixed (m : umap) (o : op) : outcome umap :=
  match o with Remove k => erase_fixed m k | _ => step m o end.

Fixpoint run_from (st : umap -> op -> outcome umap) (m : umap) (h : list op) : outcome umap :=
  match h with
  | [] => Done m
  | o :: h => m' <- st m o ;; run_from st m' h
  end.

Definition run (h : list op) : outcome umap := run_from step empty_map h.
Definition run_fixed (h : list op) : outcome umap := run_from step_fixed empty_map h.
End UMap.

Arguments node : clear implicits.
Arguments umap : clear implicits.
Arguments op : clear implicits.
