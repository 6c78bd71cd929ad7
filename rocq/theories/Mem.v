(** Memory blocks with object lifetimes and coil::Buffer
    (include/coil/detail/Buffer.h, src/Buffer.cpp), the storage class below both
    coil::String and coil::Vector<T>.

    A block is an array of cells.  A cell is [Some a] if it holds an initialised
    byte (String) or a live object (Vector<T>), [None] if it is raw storage.
    For Vector<T> one cell stands for sizeof(T) bytes, and pointers are counted
    in cells.  A freed block keeps its identity, so that an access through a
    dangling pointer is noticed. *)
From Coq Require Import Bool PeanoNat Lia List.
From Verif Require Import Base.
Import ListNotations.

Notation cell A := (option A).

Section Memory.
Context {A : Type}.

(** A pointer is null, points into a block, or to the first element of a
    constant array of the caller (a string literal, a C array, a view of foreign
    memory) that is alive during the call. *)
Inductive pointer : Type :=
| Null
| At (block offset : nat)
| Ext (l : list A).

(** [cost] is a ghost counter: the number of cells written by copies and moves
    of bytes or elements; no operation reads it. *)
Record heap := Heap { blocks : list (option (list (cell A))); cost : nat }.

Definition empty_heap : heap := Heap [] 0.

Definition live (h : heap) (b : nat) (cs : list (cell A)) : Prop :=
  nth_error (blocks h) b = Some (Some cs).

(** The block a pointer points into, if it has not been freed. *)
Definition find_block (h : heap) (b : nat) : outcome (list (cell A)) :=
  match nth_error (blocks h) b with
  | None => Fault OutOfBounds
  | Some None => Fault UseAfterFree
  | Some (Some cs) => Done cs
  end.

Fixpoint set_nth {X : Type} (l : list X) (n : nat) (x : X) : list X :=
  match l, n with
  | [], _ => []
  | _ :: r, 0 => x :: r
  | y :: r, S m => y :: set_nth r m x
  end.

Definition set_block (h : heap) (b : nat) (x : option (list (cell A))) : heap :=
  Heap (set_nth (blocks h) b x) (cost h).

(** Reading p[i]. *)
Definition load (h : heap) (p : pointer) (i : nat) : outcome (cell A) :=
  match p with
  | Null => Fault NullDeref
  | Ext l => match nth_error l i with Some a => Done (Some a) | None => Fault OutOfBounds end
  | At b o =>
      cs <- find_block h b ;;
      match nth_error cs (o + i) with Some c => Done c | None => Fault OutOfBounds end
  end.

(** Reading an initialised p[i]. *)
Definition load_value (h : heap) (p : pointer) (i : nat) : outcome A :=
  c <- load h p i ;; match c with Some a => Done a | None => Fault BadLifetime end.

(** Writing p[i]; the caller's arrays are constant. *)
Definition store (h : heap) (p : pointer) (i : nat) (c : cell A) : outcome heap :=
  match p with
  | Null => Fault NullDeref
  | Ext _ => Fault OutOfBounds
  | At b o =>
      cs <- find_block h b ;;
      if o + i <? length cs then Done (set_block h b (Some (set_nth cs (o + i) c)))
      else Fault OutOfBounds
  end.

(** p[i], p[i+1], ..., [n] cells. *)
Fixpoint load_n (h : heap) (p : pointer) (i n : nat) : outcome (list (cell A)) :=
  match n with
  | 0 => Done []
  | S m => c <- load h p i ;; r <- load_n h p (S i) m ;; Done (c :: r)
  end.

Fixpoint store_n (h : heap) (p : pointer) (i : nat) (l : list (cell A)) : outcome heap :=
  match l with
  | [] => Done h
  | c :: r => h' <- store h p i c ;; store_n h' p (S i) r
  end.

(** C requires valid pointers of memcpy even for zero bytes. *)
Definition valid (h : heap) (p : pointer) : outcome unit :=
  match p with
  | Null => Fault NullDeref
  | Ext _ => Done tt
  | At b o => cs <- find_block h b ;;
              if o <=? length cs then Done tt else Fault OutOfBounds
  end.

Definition advance (p : pointer) (n : nat) : pointer :=
  match p with Null => Null | At b o => At b (o + n) | Ext l => Ext (skipn n l) end.

(** The two regions have a common cell (undefined for memcpy). *)
Definition overlap (p q : pointer) (n : nat) : bool :=
  match p, q with
  | At b o, At b' o' => (b =? b') && (o <? o' + n) && (o' <? o + n)
  | _, _ => false
  end.

Definition spend (h : heap) (n : nat) : heap := Heap (blocks h) (cost h + n).

(** memcpy(dst, src, n) of the C library, used at src/Buffer.cpp:95 and src/String.cpp:105. *)
Definition memcpy (h : heap) (dst src : pointer) (n : nat) : outcome heap :=
  _ <- valid h dst ;;
  _ <- valid h src ;;
  cs <- load_n h src 0 n ;;
  if overlap dst src n then Fault OutOfBounds
  else h' <- store_n h dst 0 cs ;; Done (spend h' n).

(** new char[n], src/Buffer.cpp:5: a block of [n] raw cells (in cells of the element type).
    Exhaustion of memory (bad_alloc) is not modelled. *)
Definition alloc (h : heap) (n : nat) : heap * pointer :=
  (Heap (blocks h ++ [Some (repeat None n)]) (cost h), At (length (blocks h)) 0).

(** delete[] p, src/Buffer.cpp:27.  [objects] says that live cells are objects with a destructor:
    freeing the storage of one that has not been destroyed is a leak. *)
Definition free (objects : bool) (h : heap) (p : pointer) : outcome heap :=
  match p with
  | Null => Fault NullDeref
  | Ext _ => Fault OutOfBounds
  | At b o =>
      cs <- find_block h b ;;
      if negb (o =? 0) then Fault OutOfBounds
      else if objects && existsb (fun c => match c with Some _ => true | None => false end) cs
           then Fault BadLifetime
           else Done (set_block h b None)
  end.

(** ** size_t arithmetic: [W] is the number of size_t values, 2^64 usually. *)
Variable W : nat.
Definition wadd (a b : nat) : nat := (a + b) mod W.
Definition wmul (a b : nat) : nat := (a * b) mod W.

(** ** coil::Buffer *)

(** Members, include/coil/detail/Buffer.h:83-91. *)
Record buffer := Buffer {
  m_ptr : pointer;
  m_capacity : nat;
  m_chunkSize : nat;
  m_size : nat;
  m_constructed : nat     (* m_constructedObjectsCount *)
}.

(** Buffer(size_t capacity, size_t chunkSize), src/Buffer.cpp:5-8. *)
Definition buffer_make (h : heap) (capacity chunkSize : nat) : outcome (heap * buffer) :=
  let bytes := wmul capacity chunkSize in
  let '(h', p) := if 0 <? bytes then alloc h (bytes / chunkSize) else (h, Null) in
  _ <- assert_ (0 <? chunkSize) ;;
  Done (h', Buffer p capacity chunkSize 0 0).

(** The member initialisers alone, include/coil/detail/Buffer.h:83-91: what
    Buffer(Buffer&&) starts from. *)
Definition moved_buffer : buffer := Buffer Null 0 0 0 0.

(** capacityBytes, src/Buffer.cpp:61-64. *)
Definition capacityBytes (b : buffer) : nat := wmul (m_capacity b) (m_chunkSize b).

(** resize, src/Buffer.cpp:71-75. *)
Definition buffer_resize (b : buffer) (n : nat) : outcome buffer :=
  _ <- assert_ (n <=? m_capacity b) ;;
  Done (Buffer (m_ptr b) (m_capacity b) (m_chunkSize b) n (m_constructed b)).

(** copy, src/Buffer.cpp:87-96. *)
Definition buffer_copy (h : heap) (b : buffer) (p : pointer) (n : nat) : outcome heap :=
  if n =? 0 then Done h
  else
    _ <- assert_ (match p with Null => false | _ => true end) ;;
    _ <- assert_ (n <=? capacityBytes b) ;;
    memcpy h (m_ptr b) p n.

(** Buffer(Buffer const&), src/Buffer.cpp:10-15. *)
Definition buffer_copy_ctor (h : heap) (rhs : buffer) : outcome (heap * buffer) :=
  hb <- buffer_make h (m_capacity rhs) (m_chunkSize rhs) ;;
  _ <- assert_ (m_constructed rhs =? 0) ;;
  h' <- buffer_copy (fst hb) (snd hb) (m_ptr rhs) (wmul (m_size rhs) (m_chunkSize (snd hb))) ;;
  Done (h', Buffer (m_ptr (snd hb)) (m_capacity (snd hb)) (m_chunkSize (snd hb))
                   (m_size rhs) (m_constructed (snd hb))).

(** Buffer(Buffer&&), src/Buffer.cpp:17-20: the new buffer and what is left of
    [rhs]. *)
Definition buffer_move_ctor (rhs : buffer) : buffer * buffer := (rhs, moved_buffer).

(** ~Buffer, src/Buffer.cpp:22-29. *)
Definition buffer_destroy (objects : bool) (h : heap) (b : buffer) : outcome heap :=
  _ <- assert_ (m_constructed b =? 0) ;;
  match m_ptr b with Null => Done h | p => free objects h p end.

(** operator=(Buffer const&), src/Buffer.cpp:31-38: the temporary takes the old
    storage of the target and frees it. *)
Definition buffer_assign (h : heap) (this rhs : buffer) : outcome (heap * buffer) :=
  _ <- assert_ (m_constructed rhs =? 0) ;;
  hb <- buffer_copy_ctor h rhs ;;
  h' <- buffer_destroy false (fst hb) this ;;
  Done (h', snd hb).

(** operator=(Buffer&&), src/Buffer.cpp:40-44 with swap, 98-109: the two buffers
    are exchanged; new target and new source. *)
Definition buffer_assign_move (this rhs : buffer) : buffer * buffer := (rhs, this).

(** constructNext<T>, include/coil/detail/Buffer.h:35-50. *)
Definition constructNext (sizeT : nat) (h : heap) (b : buffer) (v : A)
  : outcome (heap * buffer) :=
  _ <- assert_ (match m_ptr b with Null => false | _ => true end) ;;
  _ <- assert_ (m_size b <? m_capacity b) ;;
  _ <- assert_ (m_chunkSize b =? sizeT) ;;
  c <- load h (m_ptr b) (m_size b) ;;
  match c with
  | Some _ => Fault BadLifetime
  | None =>
      h' <- store h (m_ptr b) (m_size b) (Some v) ;;
      Done (h', Buffer (m_ptr b) (m_capacity b) (m_chunkSize b) (S (m_size b))
                       (S (m_constructed b)))
  end.

(** destructLast<T>, include/coil/detail/Buffer.h:52-65. *)
Definition destructLast (sizeT : nat) (h : heap) (b : buffer) : outcome (heap * buffer) :=
  _ <- assert_ (0 <? m_size b) ;;
  _ <- assert_ (m_chunkSize b =? sizeT) ;;
  _ <- load_value h (m_ptr b) (m_size b - 1) ;;
  h' <- store h (m_ptr b) (m_size b - 1) None ;;
  _ <- assert_ (0 <? m_constructed b) ;;
  Done (h', Buffer (m_ptr b) (m_capacity b) (m_chunkSize b) (m_size b - 1)
                   (m_constructed b - 1)).

End Memory.

Arguments pointer : clear implicits.
Arguments heap : clear implicits.
Arguments buffer : clear implicits.
