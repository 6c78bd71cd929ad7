(** coil::UnorderedMap (include/coil/detail/UnorderedMap.h) on the memory of its two
    vectors, with pointers to nodes: UMap.v with m_buckets and m_nodes as Vectors
    (VectorMem.v) instead of lists, size_t indices instead of options, and the references
    and iterators that the functions hold and return.

    Simplified: keys and values are abstract objects with a moved-from state (Handlers.v has
    what they own); blocks of buckets and blocks of nodes are in separate heaps, as a block
    holds objects of one type only; m_maxLoadFactor is 1 (no caller passes another one). *)
From Coq Require Import ZArith Bool PeanoNat List.
From Verif Require Import Base Mem VectorMem.
From Verif Require UMap.
Import ListNotations.

Section MapMem.
Context {K V : Type}.
(** operator== and Hash of keys. *)
Variable keqb : K -> K -> bool.
Variable hash : K -> Z.
(** What a move leaves in a key and in a value. *)
Variable movedK : K -> K.
Variable movedV : V -> V.
(** sizeof(Node), sizeof(size_t), and the number of size_t values. *)
Variable sizeN sizeI W : nat.

(** invalidIndex, UnorderedMap.h:330. *)
Definition invalid : nat := W - 1.

(** Node, UnorderedMap.h:41-48. *)
Record mnode := MNode {
  mn_key : K;
  mn_val : V;
  mn_bucket : nat;
  mn_prev : nat;
  mn_next : nat
}.

(** What the implicit move constructor of Node, UnorderedMap.h:41-48, leaves behind; indices are copied. *)
Definition moved_node (n : mnode) : mnode :=
  MNode (movedK (mn_key n)) (movedV (mn_val n)) (mn_bucket n) (mn_prev n) (mn_next n).

Definition with_val (v : V) (n : mnode) := MNode (mn_key n) v (mn_bucket n) (mn_prev n) (mn_next n).
Definition with_bucket (b : nat) (n : mnode) := MNode (mn_key n) (mn_val n) b (mn_prev n) (mn_next n).
Definition with_prev (p : nat) (n : mnode) := MNode (mn_key n) (mn_val n) (mn_bucket n) p (mn_next n).
Definition with_next (x : nat) (n : mnode) := MNode (mn_key n) (mn_val n) (mn_bucket n) (mn_prev n) x.

(** The members m_buckets and m_nodes, UnorderedMap.h:333-334. *)
Record mmap := MMap { mm_buckets : vec nat; mm_nodes : vec mnode }.

(** The two heaps. *)
Record mheap := MHeap { h_buckets : vmem nat; h_nodes : vmem mnode }.
Definition start_heap : mheap := MHeap empty_heap empty_heap.

Definition node_ptr := pointer mnode.

(** m_nodes[i] as a reference, Vector.h:233-245. *)
Definition node_at (m : mmap) (i : nat) : outcome node_ptr :=
  _ <- assert_ (i <? m_size (mm_nodes m)) ;; Done (advance (m_ptr (mm_nodes m)) i).

(** m_nodes.back() as a reference, Vector.h:220-231. *)
Definition node_back (m : mmap) : outcome node_ptr :=
  _ <- assert_ (negb (m_size (mm_nodes m) =? 0)) ;; node_at m (m_size (mm_nodes m) - 1).

(** Reading the object a reference or an iterator refers to. *)
Definition deref (h : mheap) (p : node_ptr) : outcome mnode := load_value (h_nodes h) p 0.

(** Assigning to a member of it. *)
Definition modify (h : mheap) (p : node_ptr) (f : mnode -> mnode) : outcome mheap :=
  n <- deref h p ;;
  g <- store (h_nodes h) p 0 (Some (f n)) ;;
  Done (MHeap (h_buckets h) g).

(** m_buckets[i] = x, UnorderedMap.h:182, 208, 272 and 296. *)
Definition set_bucket (h : mheap) (m : mmap) (i x : nat) : outcome mheap :=
  g <- vec_set (h_buckets h) (mm_buckets m) i x ;; Done (MHeap g (h_nodes h)).

Definition get_bucket (h : mheap) (m : mmap) (i : nat) : outcome nat :=
  vec_get (h_buckets h) (mm_buckets m) i.

(** computeBucketIndex, UnorderedMap.h:250-255. *)
Definition bucket_index (m : mmap) (k : K) : outcome nat :=
  match m_size (mm_buckets m) with
  | 0 => Fault DivByZero
  | S _ as n => Done (Z.to_nat (hash k mod Z.of_nat n)%Z)
  end.

(** The loop of findNodeIndex, UnorderedMap.h:314-326. *)
Fixpoint find_loop (fuel : nat) (h : mheap) (m : mmap) (k : K) (nodeIndex : nat) : outcome nat :=
  if nodeIndex =? invalid then Done invalid
  else
    match fuel with
    | 0 => Fault Diverges
    | S f =>
        _ <- assert_ (nodeIndex <? m_size (mm_nodes m)) ;;
        p <- node_at m nodeIndex ;;
        n <- deref h p ;;
        if keqb (mn_key n) k then Done nodeIndex else find_loop f h m k (mn_next n)
    end.

(** findNodeIndex, UnorderedMap.h:308-327. *)
Definition find_index (h : mheap) (m : mmap) (k : K) : outcome nat :=
  b <- bucket_index m k ;;
  _ <- assert_ (b <? m_size (mm_buckets m)) ;;
  first <- get_bucket h m b ;;
  find_loop (S (m_size (mm_nodes m))) h m k first.

(** end(), UnorderedMap.h:127-138 and Vector.h:197-206. *)
Definition end_ (m : mmap) : node_ptr := advance (m_ptr (mm_nodes m)) (m_size (mm_nodes m)).

(** Comparison of iterators, UnorderedMap.h:64-72. *)
Definition ptr_eqb (p q : node_ptr) : bool :=
  match p, q with
  | Null, Null => true
  | At b o, At b' o' => (b =? b') && (o =? o')
  | _, _ => false
  end.

(** find, UnorderedMap.h:226-242. *)
Definition find (h : mheap) (m : mmap) (k : K) : outcome node_ptr :=
  i <- find_index h m k ;;
  if negb (i =? invalid) then node_at m i else Done (end_ m).

(** The loop of insertNode, UnorderedMap.h:276-290.  [newNode] is the reference taken at the
    beginning. *)
Fixpoint insert_loop (fuel : nat) (h : mheap) (m : mmap) (new : nat) (newNode : node_ptr) (nodeIndex : nat)
  : outcome mheap :=
  if nodeIndex =? invalid then Done h
  else
    match fuel with
    | 0 => Fault Diverges
    | S f =>
        _ <- assert_ (nodeIndex <? m_size (mm_nodes m)) ;;
        node <- node_at m nodeIndex ;;
        n <- deref h node ;;
        if mn_next n =? invalid then
          h1 <- modify h node (with_next new) ;;
          modify h1 newNode (with_prev nodeIndex)
        else insert_loop f h m new newNode (mn_next n)
    end.

(** insertNode, UnorderedMap.h:257-291. *)
Definition insert_node (h : mheap) (m : mmap) (new : nat) : outcome mheap :=
  _ <- assert_ (new <? m_size (mm_nodes m)) ;;
  newNode <- node_at m new ;;
  n <- deref h newNode ;;
  b <- bucket_index m (mn_key n) ;;
  _ <- assert_ (b <? m_size (mm_buckets m)) ;;
  h1 <- modify h newNode (with_bucket b) ;;
  h2 <- modify h1 newNode (with_next invalid) ;;
  h3 <- modify h2 newNode (with_prev invalid) ;;
  first <- get_bucket h3 m b ;;
  if first =? invalid then set_bucket h3 m b new
  else insert_loop (S (m_size (mm_nodes m))) h3 m new newNode first.

(** resetBuckets, UnorderedMap.h:293-297: [todo] buckets remain from [i] on. *)
Fixpoint reset_loop (todo i : nat) (h : mheap) (m : mmap) : outcome mheap :=
  match todo with
  | 0 => Done h
  | S t => h' <- set_bucket h m i invalid ;; reset_loop t (S i) h' m
  end.
Definition reset_buckets (h : mheap) (m : mmap) : outcome mheap :=
  reset_loop (m_size (mm_buckets m)) 0 h m.

(** The loop of rehash, UnorderedMap.h:304-305. *)
Fixpoint rehash_nodes (todo i : nat) (h : mheap) (m : mmap) : outcome mheap :=
  match todo with
  | 0 => Done h
  | S t => h' <- insert_node h m i ;; rehash_nodes t (S i) h' m
  end.

(** rehash, UnorderedMap.h:299-306.  T() is 0 for size_t. *)
Definition rehash (h : mheap) (m : mmap) (n : nat) : outcome (mheap * mmap) :=
  r <- vec_resize 0 (fun x => x) sizeI W (h_buckets h) (mm_buckets m) n ;;
  let h1 := MHeap (fst r) (h_nodes h) in
  let m1 := MMap (snd r) (mm_nodes m) in
  h2 <- reset_buckets h1 m1 ;;
  h3 <- rehash_nodes (m_size (mm_nodes m1)) 0 h2 m1 ;;
  Done (h3, m1).

(** UnorderedMap(1, 1.0f), UnorderedMap.h:118-121; Vector's default constructor,
    Vector.h:17 and 77-80, makes an empty buffer of capacity 0. *)
Definition make (h : mheap) : outcome (mheap * mmap) :=
  b <- vec_make sizeI W (h_buckets h) 0 ;;
  n <- vec_make sizeN W (h_nodes h) 0 ;;
  rehash (MHeap (fst b) (fst n)) (MMap (snd b) (snd n)) 1.

(** insertOrAssign, UnorderedMap.h:140-159: the new state and the iterator returned. *)
Definition insert_or_assign (h : mheap) (m : mmap) (key : K) (value : V) : outcome (mheap * mmap * node_ptr) :=
  it <- find h m key ;;
  if negb (ptr_eqb it (end_ m)) then
    h' <- modify h it (with_val value) ;; Done (h', m, it)
  else
    let nextSize := wadd W (m_size (mm_nodes m)) 1 in
    r <- (if UMap.load_exceeds nextSize (m_size (mm_buckets m))
          then rehash h m (wmul W (m_size (mm_nodes m)) 2) else Done (h, m)) ;;
    let '(h1, m1) := r in
    let newNodeIndex := m_size (mm_nodes m1) in
    p <- vec_push moved_node sizeN W (h_nodes h1) (mm_nodes m1) (MNode key value invalid invalid invalid) ;;
    let h2 := MHeap (h_buckets h1) (fst p) in
    let m2 := MMap (mm_buckets m1) (snd p) in
    h3 <- insert_node h2 m2 newNodeIndex ;;
    it <- node_at m2 newNodeIndex ;;
    Done (h3, m2, it).

(** coil::exchange of two nodes, Utility.h:25-31: a temporary takes the first one, then two
    move assignments; the temporary is destroyed. *)
Definition exchange (h : mheap) (lhs rhs : node_ptr) : outcome mheap :=
  temp <- deref h lhs ;;
  h1 <- modify h lhs moved_node ;;
  r <- deref h1 rhs ;;
  h2 <- modify h1 rhs moved_node ;;
  h3 <- modify h2 lhs (fun _ => r) ;;
  modify h3 rhs (fun _ => temp).

(** erase, UnorderedMap.h:161-218; the references are to be read when they are used. *)
Definition erase (h : mheap) (m : mmap) (key : K) : outcome (mheap * mmap) :=
  nodeIndex <- find_index h m key ;;
  if nodeIndex =? invalid then Done (h, m)
  else
    _ <- assert_ (nodeIndex <? m_size (mm_nodes m)) ;;
    erasedNode <- node_at m nodeIndex ;;
    e <- deref h erasedNode ;;
    _ <- assert_ (mn_bucket e <? m_size (mm_buckets m)) ;;
    h1 <- (if negb (mn_prev e =? invalid) then
             head <- get_bucket h m (mn_bucket e) ;;
             _ <- assert_ (negb (head =? nodeIndex)) ;;
             _ <- assert_ (mn_prev e <? m_size (mm_nodes m)) ;;
             prev <- node_at m (mn_prev e) ;;
             modify h prev (with_next (mn_next e))
           else
             head <- get_bucket h m (mn_bucket e) ;;
             _ <- assert_ (head =? nodeIndex) ;;
             set_bucket h m (mn_bucket e) (mn_next e)) ;;
    e <- deref h1 erasedNode ;;
    h2 <- (if negb (mn_next e =? invalid) then
             _ <- assert_ (mn_next e <? m_size (mm_nodes m)) ;;
             next <- node_at m (mn_next e) ;;
             modify h1 next (with_prev (mn_prev e))
           else Done h1) ;;
    h3 <- modify h2 erasedNode (with_prev invalid) ;;
    h4 <- modify h3 erasedNode (with_next invalid) ;;
    _ <- assert_ (negb (m_size (mm_nodes m) =? 0)) ;;
    h5 <- (if negb (nodeIndex =? m_size (mm_nodes m) - 1) then
             lastNode <- node_back m ;;
             l <- deref h4 lastNode ;;
             h5 <- (if negb (mn_prev l =? invalid) then
                      _ <- assert_ (mn_prev l <? m_size (mm_nodes m)) ;;
                      prev <- node_at m (mn_prev l) ;;
                      modify h4 prev (with_next nodeIndex)
                    else
                      _ <- assert_ (mn_bucket l <? m_size (mm_buckets m)) ;;
                      set_bucket h4 m (mn_bucket l) nodeIndex) ;;
             exchange h5 erasedNode lastNode
           else Done h4) ;;
    back <- node_back m ;;
    l <- deref h5 back ;;
    _ <- assert_ (mn_prev l =? invalid) ;;
    _ <- assert_ (mn_next l =? invalid) ;;
    r <- vec_pop sizeN (h_nodes h5) (mm_nodes m) ;;
    Done (MHeap (h_buckets h5) (fst r), MMap (mm_buckets m) (snd r)).

(** clear, UnorderedMap.h:220-224. *)
Definition clear (h : mheap) (m : mmap) : outcome (mheap * mmap) :=
  r <- vec_clear sizeN (h_nodes h) (mm_nodes m) ;;
  let m1 := MMap (mm_buckets m) (snd r) in
  h' <- reset_buckets (MHeap (h_buckets h) (fst r)) m1 ;;
  Done (h', m1).

(** The implicit destructor: m_nodes, then m_buckets. *)
Definition destroy (h : mheap) (m : mmap) : outcome mheap :=
  n <- vec_destroy sizeN (h_nodes h) (mm_nodes m) ;;
  b <- vec_destroy sizeI (h_buckets h) (mm_buckets m) ;;
  Done (MHeap b n).

(** The implicit move constructor and move assignment; both move the vectors, Vector.h:87-88
    and 103-104. *)
Definition move_from (m : mmap) : mmap * mmap :=
  let '(b, b') := buffer_move_ctor (mm_buckets m) in
  let '(n, n') := buffer_move_ctor (mm_nodes m) in
  (MMap b n, MMap b' n').
Definition move_assign (this rhs : mmap) : mmap * mmap :=
  let '(b, b') := buffer_assign_move (mm_buckets this) (mm_buckets rhs) in
  let '(n, n') := buffer_assign_move (mm_nodes this) (mm_nodes rhs) in
  (MMap b n, MMap b' n').

(** ** Programs

    Any number of registries, and the pointers to commands that [add] and [get] returned so
    far, the last one first. *)
Inductive mop :=
| MNew                     (* Bindings b *)
| MAdd (b : nat) (k : K) (v : V)     (* Command const& r = b.add(k, v) *)
| MGet (b : nat) (k : K)             (* Command const* p = b.get(k) *)
| MRemove (b : nat) (k : K)
| MClear (b : nat)
| MMoveCtor (b : nat)                (* Bindings c{move(b)} *)
| MMoveAssign (b c : nat)            (* b = move(c), different variables *)
| MDestroy (b : nat).

Record mworld := MWorld { mw_heap : mheap; mw_maps : list (option mmap); mw_ptrs : list node_ptr }.
Definition mstart : mworld := MWorld start_heap [] [].

Definition mvar (w : mworld) (b : nat) : outcome mmap :=
  match nth_error (mw_maps w) b with Some (Some m) => Done m | _ => Fault UseAfterFree end.

(** Bindings::add, src/Coil.cpp:213-219, returns a reference into the node; [get], 226-233,
    a pointer into the node or null. *)
Definition mstep (w : mworld) (o : mop) : outcome mworld :=
  let h := mw_heap w in
  let maps := mw_maps w in
  match o with
  | MNew => r <- make h ;; Done (MWorld (fst r) (maps ++ [Some (snd r)]) (mw_ptrs w))
  | MAdd b k v =>
      m <- mvar w b ;;
      r <- insert_or_assign h m k v ;;
      let '(h', m', it) := r in
      Done (MWorld h' (set_nth maps b (Some m')) (it :: mw_ptrs w))
  | MGet b k =>
      m <- mvar w b ;;
      it <- find h m k ;;
      Done (MWorld h maps ((if ptr_eqb it (end_ m) then Null else it) :: mw_ptrs w))
  | MRemove b k =>
      m <- mvar w b ;;
      r <- erase h m k ;;
      Done (MWorld (fst r) (set_nth maps b (Some (snd r))) (mw_ptrs w))
  | MClear b =>
      m <- mvar w b ;;
      r <- clear h m ;;
      Done (MWorld (fst r) (set_nth maps b (Some (snd r))) (mw_ptrs w))
  | MMoveCtor b =>
      m <- mvar w b ;;
      let '(new, old) := move_from m in
      Done (MWorld h (set_nth maps b (Some old) ++ [Some new]) (mw_ptrs w))
  | MMoveAssign b c =>
      m <- mvar w b ;;
      n <- mvar w c ;;
      _ <- (if b =? c then Fault BadLifetime else Done tt) ;;
      let '(this, rhs) := move_assign m n in
      Done (MWorld h (set_nth (set_nth maps b (Some this)) c (Some rhs)) (mw_ptrs w))
  | MDestroy b =>
      m <- mvar w b ;;
      h' <- destroy h m ;;
      Done (MWorld h' (set_nth maps b None) (mw_ptrs w))
  end.

Fixpoint mruns (w : mworld) (os : list mop) : outcome mworld :=
  match os with [] => Done w | o :: r => w' <- mstep w o ;; mruns w' r end.

(** Reading the command through pointer number [r]. *)
Definition mread (w : mworld) (r : nat) : outcome (K * V) :=
  match nth_error (mw_ptrs w) r with
  | None => Fault NullDeref
  | Some p => n <- deref (mw_heap w) p ;; Done (mn_key n, mn_val n)
  end.
End MapMem.

Arguments mnode : clear implicits.
Arguments mmap : clear implicits.
Arguments mheap : clear implicits.
Arguments mop : clear implicits.
Arguments mworld : clear implicits.
