(** coil::Vector<T> when allocation and the constructors of T may throw
    (include/coil/detail/Vector.h; VectorMem.v is the same code without
    exceptions).

    The calls that may throw are recorded, the latest first, and an arbitrary
    function of this record decides whether the latest one throws.  Destructors,
    moving a Vector (Buffer::swap) and the element assignment x[k] = v of the
    user do not throw. *)
From Coq Require Import Bool PeanoNat Lia List.
From Verif Require Import Base Mem VectorMem.
Import ListNotations.

(** new char[n] (Buffer.cpp:5), T(T const&), T(T&&), T(). *)
Inductive call := NewStorage | CopyT | MoveT | DefaultT.

Section VectorThrow.
Context {V : Type}.
Variable dflt : V.
Variable moved : V -> V.
(** What a throwing move constructor leaves in its argument. *)
Variable torn : V -> V.
Variable sizeT : nat.
Variable W : nat.
(** COIL_CONFIG_ENABLE_ASSERTS.  It matters only where an assertion fails. *)
Variable asserts : bool.
Variable raises : list call -> bool.

Local Notation log := (list call).

(** Buffer(size_t, size_t), src/Buffer.cpp:5-8, as in Vector(size_t),
    Vector.h:77-80; [None] if the allocation throws. *)
Definition x_make (h : vmem V) (t : log) (capacity : nat) : outcome (vmem V * log * option (vec V)) :=
  if 0 <? wmul W capacity sizeT then
    let t := NewStorage :: t in
    if raises t then Done (h, t, None)
    else hb <- buffer_make W h capacity sizeT ;; Done (fst hb, t, Some (snd hb))
  else hb <- buffer_make W h capacity sizeT ;; Done (fst hb, t, Some (snd hb)).

(** The loop of Vector(T const ptr, T const ptr), Vector.h:73-74; the result is
    the vector as the loop leaves it and whether it threw.  constructNext counts
    the element after its constructor has returned (Buffer.h:42-43). *)
Fixpoint x_copy_loop (h : vmem V) (t : log) (b : vec V) (p : pointer V) (i n : nat)
  : outcome (vmem V * log * vec V * bool) :=
  match n with
  | 0 => Done (h, t, b, false)
  | S m => v <- load_value h p i ;;
           let t := CopyT :: t in
           if raises t then Done (h, t, b, true)
           else hb <- constructNext sizeT h b v ;;
                x_copy_loop (spend (fst hb) 1) t (snd hb) p (S i) m
  end.

(** Vector(begin, end), Vector.h:67-75.  It delegates to Vector(size_t): once that
    has returned, ~Vector runs if the body throws. *)
Definition x_range (h : vmem V) (t : log) (p : pointer V) (n : nat)
  : outcome (vmem V * log * option (vec V)) :=
  r <- x_make h t n ;;
  let '(h, t, o) := r in
  match o with
  | None => Done (h, t, None)
  | Some b =>
      _ <- assert_ (n <=? m_capacity b) ;;
      _ <- assert_ (m_size b =? 0) ;;
      r <- x_copy_loop h t b p 0 n ;;
      let '(h, t, b, thrown) := r in
      if thrown : bool then h <- vec_destroy sizeT h b ;; Done (h, t, None)
      else Done (h, t, Some b)
  end.

(** Vector(Vector const&), Vector.h:82-85, delegates to Vector(begin, end). *)
Definition x_copy (h : vmem V) (t : log) (rhs : vec V) : outcome (vmem V * log * option (vec V)) :=
  x_range h t (m_ptr rhs) (m_size rhs).

(** operator=(Vector const&), Vector.h:96-101. *)
Definition x_assign (h : vmem V) (t : log) (this rhs : vec V)
  : outcome (vmem V * log * vec V * bool) :=
  r <- x_copy h t rhs ;;
  let '(h, t, o) := r in
  match o with
  | None => Done (h, t, this, true)
  | Some temp =>
      let '(this, temp) := buffer_assign_move this temp in
      h <- vec_destroy sizeT h temp ;; Done (h, t, this, false)
  end.

(** The loop of grow, Vector.h:267-268. *)
Fixpoint x_move_loop (h : vmem V) (t : log) (b nb : vec V) (i n : nat)
  : outcome (vmem V * log * vec V * bool) :=
  match n with
  | 0 => Done (h, t, nb, false)
  | S m => v <- load_value h (m_ptr b) i ;;
           let t := MoveT :: t in
           if raises t then h <- store h (m_ptr b) i (Some (torn v)) ;; Done (h, t, nb, true)
           else h <- store h (m_ptr b) i (Some (moved v)) ;;
                hb <- constructNext sizeT h nb v ;;
                x_move_loop (spend (fst hb) 1) t b (snd hb) (S i) m
  end.

(** ~Buffer for a local Buffer, src/Buffer.cpp:22-29. *)
Definition x_drop (h : vmem V) (b : vec V) : outcome (vmem V) :=
  if asserts then buffer_destroy true h b
  else match m_ptr b with Null => Done h | p => free true h p end.

(** grow, Vector.h:262-278.  If a move throws, the local [buffer] is destroyed,
    which does not destroy the elements in it. *)
Definition x_grow (h : vmem V) (t : log) (b : vec V) (newCapacity : nat)
  : outcome (vmem V * log * vec V * bool) :=
  r <- x_make h t newCapacity ;;
  let '(h, t, o) := r in
  match o with
  | None => Done (h, t, b, true)
  | Some buffer =>
      r <- x_move_loop h t b buffer 0 (m_size b) ;;
      let '(h, t, buffer, thrown) := r in
      if thrown : bool then h <- x_drop h buffer ;; Done (h, t, b, true)
      else
        _ <- assert_ (m_size b =? m_size buffer) ;;
        hb <- destruct_to sizeT (m_size b) h b 0 ;;
        let '(this, old) := buffer_assign_move (snd hb) buffer in
        h <- buffer_destroy true (fst hb) old ;;
        _ <- assert_ (m_capacity this =? newCapacity) ;;
        Done (h, t, this, false)
  end.

(** reserve, Vector.h:106-111. *)
Definition x_reserve (h : vmem V) (t : log) (b : vec V) (newCapacity : nat)
  : outcome (vmem V * log * vec V * bool) :=
  if m_capacity b <? newCapacity then x_grow h t b newCapacity else Done (h, t, b, false).

(** while (size() < n) constructNext(): Vector.h:123-124. *)
Fixpoint x_construct_to (fuel : nat) (h : vmem V) (t : log) (b : vec V) (n : nat)
  : outcome (vmem V * log * vec V * bool) :=
  if m_size b <? n then
    match fuel with
    | 0 => Fault Diverges
    | S f => let t := DefaultT :: t in
             if raises t then Done (h, t, b, true)
             else hb <- constructNext sizeT h b dflt ;; x_construct_to f (fst hb) t (snd hb) n
    end
  else Done (h, t, b, false).

(** resize, Vector.h:113-127. *)
Definition x_resize (h : vmem V) (t : log) (b : vec V) (newSize : nat)
  : outcome (vmem V * log * vec V * bool) :=
  r <- x_reserve h t b newSize ;;
  let '(h, t, b, thrown) := r in
  if thrown : bool then Done (h, t, b, true)
  else
    _ <- assert_ (newSize <=? m_capacity b) ;;
    hb <- destruct_to sizeT (m_size b) h b newSize ;;
    r <- x_construct_to newSize (fst hb) t (snd hb) newSize ;;
    let '(h, t, b, thrown) := r in
    if thrown : bool then Done (h, t, b, true)
    else _ <- assert_ (m_size b =? newSize) ;; Done (h, t, b, false).

(** pushBack, Vector.h:129-144.  The parameter is a copy of the argument, made
    before the call. *)
Definition x_push (h : vmem V) (t : log) (b : vec V) (arg : V)
  : outcome (vmem V * log * vec V * bool) :=
  let t := CopyT :: t in
  if raises t then Done (h, t, b, true)
  else
    let nextSize := wadd W (m_size b) 1 in
    r <- (if m_capacity b <? nextSize then
            let nextCapacity := wmul W (m_size b) 3 / 2 in
            x_grow h t b (if nextCapacity <? nextSize then nextSize else nextCapacity)
          else Done (h, t, b, false)) ;;
    let '(h, t, b, thrown) := r in
    if thrown : bool then Done (h, t, b, true)
    else
      _ <- assert_ (nextSize <=? m_capacity b) ;;
      let t := MoveT :: t in
      if raises t then Done (h, t, b, true)
      else hb <- constructNext sizeT h b arg ;; Done (spend (fst hb) 1, t, snd hb, false).

(** ** Programs

    After each operation the program sees whether it threw, and goes on
    accordingly. *)
Inductive xprog : Type :=
| XEnd
| XDo (o : vop V) (next : bool -> xprog).

Definition x_new (w : vworld V) (i : nat) (r : vmem V * log * option (vec V))
  : vworld V * log * bool :=
  let '(h, t, o) := r in
  (VWorld h (vput (vw_vec w) i o), t, match o with None => true | Some _ => false end).

Definition x_set (w : vworld V) (i : nat) (r : vmem V * log * vec V * bool)
  : vworld V * log * bool :=
  let '(h, t, b, thrown) := r in (VWorld h (vput (vw_vec w) i (Some b)), t, thrown).

Definition x_step (w : vworld V) (t : log) (o : vop V) : outcome (vworld V * log * bool) :=
  let h := vw_mem w in
  match o with
  | VMake i n => _ <- vunused w i ;; r <- x_make h t n ;; Done (x_new w i r)
  | VRange i l => _ <- vunused w i ;; r <- x_range h t (Ext l) (length l) ;; Done (x_new w i r)
  | VCopy i j => _ <- vunused w i ;; y <- vvar w j ;; r <- x_copy h t y ;; Done (x_new w i r)
  | VAssign i j => x <- vvar w i ;; y <- vvar w j ;; r <- x_assign h t x y ;; Done (x_set w i r)
  | VReserve i n => x <- vvar w i ;; r <- x_reserve h t x n ;; Done (x_set w i r)
  | VResize i n => x <- vvar w i ;; r <- x_resize h t x n ;; Done (x_set w i r)
  | VPush i v => x <- vvar w i ;; r <- x_push h t x v ;; Done (x_set w i r)
  | VPushElem i j k => x <- vvar w i ;; y <- vvar w j ;; v <- vec_get h y k ;;
                       r <- x_push h t x v ;; Done (x_set w i r)
  | VMove _ _ | VAssignMove _ _ | VDestroy _ | VPop _ | VClear _ | VSet _ _ _ =>
      w' <- vstep dflt moved sizeT W w o ;; Done (w', t, false)
  end.

(** The final state, the record of calls, and which operations threw. *)
Fixpoint x_runs (w : vworld V) (t : log) (p : xprog) : outcome (vworld V * log * list bool) :=
  match p with
  | XEnd => Done (w, t, [])
  | XDo o next =>
      r <- x_step w t o ;;
      let '(w', t', thrown) := r in
      r' <- x_runs w' t' (next thrown) ;;
      let '(w'', t'', trace) := r' in Done (w'', t'', thrown :: trace)
  end.

End VectorThrow.

Arguments xprog : clear implicits.
