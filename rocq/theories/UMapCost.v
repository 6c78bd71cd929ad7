(** The work done by coil::UnorderedMap (include/coil/detail/UnorderedMap.h): the
    functions of UMap.v again, each statement now also counting what it does. *)
From Coq Require Import Ascii String NArith ZArith Bool PeanoNat List.
Import ListNotations.
From Verif Require Import Util Base UMap.

(** What is counted:
    - [hashes]: hash values computed (UnorderedMap.h:253),
    - [matches]: comparisons of a key with the key of a node (UnorderedMap.h:320),
    - [visits]: nodes looked at for the end of a chain (UnorderedMap.h:279-289),
    - [relinks]: nodes put again into the table by rehash (UnorderedMap.h:305),
    - [resets]: buckets emptied by resetBuckets (UnorderedMap.h:296). *)
Record work := Work { hashes : nat; matches : nat; visits : nat; relinks : nat; resets : nat }.

Definition no_work : work := Work 0 0 0 0 0.

Definition plus_work (a b : work) : work :=
  Work (hashes a + hashes b) (matches a + matches b) (visits a + visits b)
       (relinks a + relinks b) (resets a + resets b).

(** A computation with its work; a fault keeps the work done before it. *)
Definition costed (A : Type) : Type := work * outcome A.

Definition gratis {A} (o : outcome A) : costed A := (no_work, o).

Definition wbind {A B} (x : costed A) (k : A -> costed B) : costed B :=
  match snd x with
  | Done a => let y := k a in (plus_work (fst x) (fst y), snd y)
  | Fault f => (fst x, Fault f)
  end.

Notation "x <~ e ;; k" := (wbind e (fun x => k))
  (at level 61, e at next level, right associativity).

Section UMapCost.
Context {K V : Type}.
Variable keqb : K -> K -> bool.
Variable hash : K -> Z.

(** computeBucketIndex, UnorderedMap.h:250-255: one hash. *)
Definition computeBucketIndex_w (m : umap K V) (k : K) : costed nat :=
  (Work 1 0 0 0 0, computeBucketIndex hash m k).

(** node.pair.m_key == key, UnorderedMap.h:320. *)
Definition matches_w (a b : K) : costed bool := (Work 0 1 0 0 0, Done (keqb a b)).

(** One turn of the loop of insertNode, UnorderedMap.h:279-280. *)
Definition visit_w (ns : list (node K V)) (i : nat) : costed (node K V) :=
  (Work 0 0 1 0 0, at_ ns i).

(** The loop of findNodeIndex, UnorderedMap.h:314-326. *)
Fixpoint find_walk_w (fuel : nat) (ns : list (node K V)) (k : K) (cur : option nat)
  : costed (option nat) :=
  match cur with
  | None => gratis (Done None)
  | Some i =>
      match fuel with
      | O => gratis (Fault Diverges)
      | S f =>
          n <~ gratis (at_ ns i) ;;
          e <~ matches_w (n_key n) k ;;
          if (e : bool) then gratis (Done (Some i)) else find_walk_w f ns k (n_next n)
      end
  end.

(** findNodeIndex, UnorderedMap.h:308-327. *)
Definition findNodeIndex_w (m : umap K V) (k : K) : costed (option nat) :=
  b <~ computeBucketIndex_w m k ;;
  cur <~ gratis (at_ (buckets m) b) ;;
  find_walk_w (S (length (nodes m))) (nodes m) k cur.

(** find, UnorderedMap.h:226-242. *)
Definition find_w (m : umap K V) (k : K) : costed (option V) :=
  i <~ findNodeIndex_w m k ;;
  match i with
  | None => gratis (Done None)
  | Some i => n <~ gratis (at_ (nodes m) i) ;; gratis (Done (Some (n_val n)))
  end.

(** The loop of insertNode, UnorderedMap.h:276-290. *)
Fixpoint insert_walk_w (fuel : nat) (ns : list (node K V)) (new i : nat)
  : costed (list (node K V)) :=
  match fuel with
  | O => gratis (Fault Diverges)
  | S f =>
      n <~ visit_w ns i ;;
      match n_next n with
      | None =>
          ns1 <~ gratis (put_next ns i (Some new)) ;;
          gratis (put_prev ns1 new (Some i))
      | Some j => insert_walk_w f ns new j
      end
  end.

(** insertNode, UnorderedMap.h:257-291. *)
Definition insertNode_w (m : umap K V) (new : nat) : costed (umap K V) :=
  n <~ gratis (at_ (nodes m) new) ;;
  b <~ computeBucketIndex_w m (n_key n) ;;
  first <~ gratis (at_ (buckets m) b) ;;
  let ns := set_nth (nodes m) new (Node (n_key n) (n_val n) (Some b) None None) in
  match first with
  | None => gratis (Done (UMap (set_nth (buckets m) b (Some new)) ns))
  | Some i =>
      ns' <~ insert_walk_w (S (length ns)) ns new i ;;
      gratis (Done (UMap (buckets m) ns'))
  end.

(** insertNode(nodeIndex) in rehash, UnorderedMap.h:305. *)
Definition relink_w (m : umap K V) (i : nat) : costed (umap K V) :=
  _ <~ (Work 0 0 0 1 0, Done tt) ;; insertNode_w m i.

(** The loop of rehash, UnorderedMap.h:304-305. *)
Fixpoint rehash_loop_w (todo i : nat) (m : umap K V) : costed (umap K V) :=
  match todo with
  | O => gratis (Done m)
  | S t => m' <~ relink_w m i ;; rehash_loop_w t (S i) m'
  end.

(** resetBuckets, UnorderedMap.h:293-297, for [n] buckets. *)
Definition resetBuckets_w (n : nat) : costed (list (option nat)) :=
  (Work 0 0 0 0 n, Done (repeat None n)).

(** rehash, UnorderedMap.h:299-306.  The work of m_buckets.resize is not counted. *)
Definition rehash_w (m : umap K V) (n : nat) : costed (umap K V) :=
  bs <~ resetBuckets_w n ;;
  rehash_loop_w (length (nodes m)) 0 (UMap bs (nodes m)).

(** insertOrAssign, UnorderedMap.h:140-159. *)
Definition insertOrAssign_w (m : umap K V) (k : K) (v : V) : costed (umap K V) :=
  i <~ findNodeIndex_w m k ;;
  match i with
  | Some i =>
      n <~ gratis (at_ (nodes m) i) ;;
      gratis (Done (UMap (buckets m) (set_nth (nodes m) i (set_val n v))))
  | None =>
      let nextSize := S (length (nodes m)) in
      m1 <~ (if load_exceeds nextSize (length (buckets m))
             then rehash_w m (length (nodes m) * 2) else gratis (Done m)) ;;
      let newNodeIndex := length (nodes m1) in
      insertNode_w (UMap (buckets m1) (nodes m1 ++ [Node k v None None None])) newNodeIndex
  end.

(** erase, UnorderedMap.h:161-218: after the lookup a fixed number of statements, which
    are not counted. *)
Definition erase_w (m : umap K V) (k : K) : costed (umap K V) :=
  i <~ findNodeIndex_w m k ;;
  match i with
  | None => gratis (Done m)
  | Some idx =>
      m1 <~ gratis (unlink m idx) ;;
      m2 <~ gratis (relocate m1 idx) ;;
      gratis (pop_node m2)
  end.

(** clear, UnorderedMap.h:220-224. *)
Definition clear_w (m : umap K V) : costed (umap K V) :=
  bs <~ resetBuckets_w (length (buckets m)) ;;
  gratis (Done (UMap bs [])).

Definition step_w (m : umap K V) (o : op K V) : costed (umap K V) :=
  match o with
  | Add k v => insertOrAssign_w m k v
  | Remove k => erase_w m k
  | Clear => clear_w m
  end.

Fixpoint run_w_from (m : umap K V) (h : list (op K V)) : costed (umap K V) :=
  match h with
  | [] => gratis (Done m)
  | o :: h => m' <~ step_w m o ;; run_w_from m' h
  end.

(** The default constructor, UnorderedMap.h:118-121, empties its one bucket. *)
Definition run_w (h : list (op K V)) : costed (umap K V) :=
  m <~ rehash_w (UMap [] []) 1 ;; run_w_from m h.
End UMapCost.
