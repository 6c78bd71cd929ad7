(** coil::Vector<T> on memory with object lifetimes
    (include/coil/detail/Vector.h).  A Vector is its Buffer [m_buffer]. *)
From Coq Require Import Bool PeanoNat Lia List.
From Verif Require Import Base Mem.
Import ListNotations.

Section VectorMem.

(** The element type: its values, the value T() of default construction, what a
    move leaves in its source, sizeof(T), and operator==. *)
Context {V : Type}.
Variable dflt : V.
Variable moved : V -> V.
Variable sizeT : nat.
Variable V_eqb : V -> V -> bool.
Variable W : nat.

Definition vec := buffer V.
Definition vmem := heap V.

(** Vector(size_t), include/coil/detail/Vector.h:77-80. *)
Definition vec_make (h : vmem) (capacity : nat) : outcome (vmem * vec) :=
  buffer_make W h capacity sizeT.

(** The loop of Vector(T const ptr, T const ptr), Vector.h:73-74: copies. *)
Fixpoint copy_loop (h : vmem) (b : vec) (p : pointer V) (i n : nat) : outcome (vmem * vec) :=
  match n with
  | 0 => Done (h, b)
  | S m => v <- load_value h p i ;;
           hb <- constructNext sizeT h b v ;;
           copy_loop (spend (fst hb) 1) (snd hb) p (S i) m
  end.

(** Vector(begin, end), Vector.h:67-75, with [n = end - begin]. *)
Definition vec_range (h : vmem) (p : pointer V) (n : nat) : outcome (vmem * vec) :=
  hb <- vec_make h n ;;
  _ <- assert_ (n <=? m_capacity (snd hb)) ;;
  _ <- assert_ (m_size (snd hb) =? 0) ;;
  copy_loop (fst hb) (snd hb) p 0 n.

(** Vector(Vector const&), Vector.h:82-85. *)
Definition vec_copy (h : vmem) (rhs : vec) : outcome (vmem * vec) :=
  vec_range h (m_ptr rhs) (m_size rhs).

(** while (size() > n) destructLast: Vector.h:121-122, 157-158, 272-273. *)
Fixpoint destruct_to (fuel : nat) (h : vmem) (b : vec) (n : nat) : outcome (vmem * vec) :=
  if n <? m_size b then
    match fuel with
    | 0 => Fault Diverges
    | S f => hb <- destructLast sizeT h b ;; destruct_to f (fst hb) (snd hb) n
    end
  else Done (h, b).

(** while (size() < n) constructNext(): Vector.h:123-124. *)
Fixpoint construct_to (fuel : nat) (h : vmem) (b : vec) (n : nat) : outcome (vmem * vec) :=
  if m_size b <? n then
    match fuel with
    | 0 => Fault Diverges
    | S f => hb <- constructNext sizeT h b dflt ;; construct_to f (fst hb) (snd hb) n
    end
  else Done (h, b).

(** clear, Vector.h:154-159. *)
Definition vec_clear (h : vmem) (b : vec) : outcome (vmem * vec) :=
  destruct_to (m_size b) h b 0.

(** The destructor, Vector.h:90-94, followed by that of m_buffer. *)
Definition vec_destroy (h : vmem) (b : vec) : outcome vmem :=
  hb <- vec_clear h b ;; buffer_destroy true (fst hb) (snd hb).

(** The loop of grow, Vector.h:267-268: element [i] is moved to the new buffer,
    which leaves a moved-from object behind. *)
Fixpoint move_loop (h : vmem) (b nb : vec) (i n : nat) : outcome (vmem * vec) :=
  match n with
  | 0 => Done (h, nb)
  | S m => v <- load_value h (m_ptr b) i ;;
           h1 <- store h (m_ptr b) i (Some (moved v)) ;;
           hb <- constructNext sizeT h1 nb v ;;
           move_loop (spend (fst hb) 1) b (snd hb) (S i) m
  end.

(** grow, Vector.h:262-278. *)
Definition vec_grow (h : vmem) (b : vec) (newCapacity : nat) : outcome (vmem * vec) :=
  hb <- buffer_make W h newCapacity sizeT ;;
  hb1 <- move_loop (fst hb) b (snd hb) 0 (m_size b) ;;
  _ <- assert_ (m_size b =? m_size (snd hb1)) ;;
  hb2 <- destruct_to (m_size b) (fst hb1) b 0 ;;
  let '(this, old) := buffer_assign_move (snd hb2) (snd hb1) in
  h3 <- buffer_destroy true (fst hb2) old ;;
  _ <- assert_ (m_capacity this =? newCapacity) ;;
  Done (h3, this).

(** reserve, Vector.h:106-111. *)
Definition vec_reserve (h : vmem) (b : vec) (newCapacity : nat) : outcome (vmem * vec) :=
  if m_capacity b <? newCapacity then vec_grow h b newCapacity else Done (h, b).

(** resize, Vector.h:113-127. *)
Definition vec_resize (h : vmem) (b : vec) (newSize : nat) : outcome (vmem * vec) :=
  hb <- (if m_capacity b <? newSize then vec_grow h b newSize else Done (h, b)) ;;
  _ <- assert_ (newSize <=? m_capacity (snd hb)) ;;
  hb1 <- destruct_to (m_size (snd hb)) (fst hb) (snd hb) newSize ;;
  hb2 <- construct_to newSize (fst hb1) (snd hb1) newSize ;;
  _ <- assert_ (m_size (snd hb2) =? newSize) ;;
  Done hb2.

(** pushBack, Vector.h:129-144.  The parameter [item] is an object of the call
    and is moved into the buffer. *)
Definition vec_push (h : vmem) (b : vec) (item : V) : outcome (vmem * vec) :=
  let nextSize := wadd W (m_size b) 1 in
  hb <- (if m_capacity b <? nextSize then
           let nextCapacity := wmul W (m_size b) 3 / 2 in
           vec_grow h b (if nextCapacity <? nextSize then nextSize else nextCapacity)
         else Done (h, b)) ;;
  _ <- assert_ (nextSize <=? m_capacity (snd hb)) ;;
  hb1 <- constructNext sizeT (fst hb) (snd hb) item ;;
  Done (spend (fst hb1) 1, snd hb1).

(** popBack, Vector.h:146-152. *)
Definition vec_pop (h : vmem) (b : vec) : outcome (vmem * vec) :=
  _ <- assert_ (negb (m_size b =? 0)) ;; destructLast sizeT h b.

(** operator[], Vector.h:233-245: reading and assigning an element. *)
Definition vec_get (h : vmem) (b : vec) (i : nat) : outcome V :=
  _ <- assert_ (i <? m_size b) ;; load_value h (m_ptr b) i.

Definition vec_set (h : vmem) (b : vec) (i : nat) (v : V) : outcome vmem :=
  _ <- assert_ (i <? m_size b) ;;
  _ <- load_value h (m_ptr b) i ;;
  store h (m_ptr b) i (Some v).

(** front and back, Vector.h:208-231. *)
Definition vec_front (h : vmem) (b : vec) : outcome V :=
  _ <- assert_ (negb (m_size b =? 0)) ;; vec_get h b 0.
Definition vec_back (h : vmem) (b : vec) : outcome V :=
  _ <- assert_ (negb (m_size b =? 0)) ;; vec_get h b (m_size b - 1).

(** operator==, Vector.h:247-260. *)
Fixpoint eq_loop (h : vmem) (a b : vec) (i n : nat) : outcome bool :=
  match n with
  | 0 => Done true
  | S m => x <- vec_get h a i ;; y <- vec_get h b i ;;
           if V_eqb x y then eq_loop h a b (S i) m else Done false
  end.

Definition vec_eq (h : vmem) (a b : vec) : outcome bool :=
  if negb (m_size a =? m_size b) then Done false else eq_loop h a b 0 (m_size a).

(** operator=(Vector const&), Vector.h:96-101: the temporary takes the old
    elements and destroys them. *)
Definition vec_assign (h : vmem) (this rhs : vec) : outcome (vmem * vec) :=
  hb <- vec_copy h rhs ;;
  let '(new, temp) := buffer_assign_move this (snd hb) in
  h' <- vec_destroy (fst hb) temp ;;
  Done (h', new).

(** ** Programs with any number of vectors *)

Record vworld := VWorld { vw_mem : vmem; vw_vec : nat -> option vec }.

Definition vstart : vworld := VWorld empty_heap (fun _ => None).

Definition vput (f : nat -> option vec) (i : nat) (o : option vec) : nat -> option vec :=
  fun j => if j =? i then o else f j.

Inductive vop : Type :=
| VMake (i n : nat)                  (* Vector x(n) *)
| VRange (i : nat) (l : list V)      (* Vector x(begin, end) of a C array l *)
| VCopy (i j : nat)                  (* Vector x{y} *)
| VMove (i j : nat)                  (* Vector x{move(y)} *)
| VAssign (i j : nat)                (* x = y *)
| VAssignMove (i j : nat)            (* x = move(y) *)
| VDestroy (i : nat)
| VReserve (i n : nat)
| VResize (i n : nat)
| VPush (i : nat) (v : V)            (* x.pushBack(v) *)
| VPushElem (i j k : nat)            (* x.pushBack(y[k]); y may be x *)
| VPop (i : nat)
| VClear (i : nat)
| VSet (i k : nat) (v : V).          (* x[k] = v *)

Definition vvar (w : vworld) (i : nat) : outcome vec :=
  match vw_vec w i with Some s => Done s | None => Fault UseAfterFree end.

Definition vunused (w : vworld) (i : nat) : outcome unit :=
  match vw_vec w i with Some _ => Fault BadLifetime | None => Done tt end.

Definition vset1 (w : vworld) (i : nat) (hb : vmem * vec) : vworld :=
  VWorld (fst hb) (vput (vw_vec w) i (Some (snd hb))).

Definition vstep (w : vworld) (o : vop) : outcome vworld :=
  let h := vw_mem w in
  match o with
  | VMake i n => _ <- vunused w i ;; hb <- vec_make h n ;; Done (vset1 w i hb)
  | VRange i l => _ <- vunused w i ;; hb <- vec_range h (Ext l) (length l) ;; Done (vset1 w i hb)
  | VCopy i j => _ <- vunused w i ;; y <- vvar w j ;; hb <- vec_copy h y ;; Done (vset1 w i hb)
  | VMove i j => _ <- vunused w i ;; y <- vvar w j ;;
                 let '(new, old) := buffer_move_ctor y in
                 Done (VWorld h (vput (vput (vw_vec w) j (Some old)) i (Some new)))
  | VAssign i j => x <- vvar w i ;; y <- vvar w j ;;
                   hb <- vec_assign h x y ;; Done (vset1 w i hb)
  | VAssignMove i j => x <- vvar w i ;; y <- vvar w j ;;
                       let '(new, old) := buffer_assign_move x y in
                       Done (VWorld h (vput (vput (vw_vec w) j (Some old)) i (Some new)))
  | VDestroy i => x <- vvar w i ;; h' <- vec_destroy h x ;;
                  Done (VWorld h' (vput (vw_vec w) i None))
  | VReserve i n => x <- vvar w i ;; hb <- vec_reserve h x n ;; Done (vset1 w i hb)
  | VResize i n => x <- vvar w i ;; hb <- vec_resize h x n ;; Done (vset1 w i hb)
  | VPush i v => x <- vvar w i ;; hb <- vec_push h x v ;; Done (vset1 w i hb)
  | VPushElem i j k => x <- vvar w i ;; y <- vvar w j ;; v <- vec_get h y k ;;
                       hb <- vec_push h x v ;; Done (vset1 w i hb)
  | VPop i => x <- vvar w i ;; hb <- vec_pop h x ;; Done (vset1 w i hb)
  | VClear i => x <- vvar w i ;; hb <- vec_clear h x ;; Done (vset1 w i hb)
  | VSet i k v => x <- vvar w i ;; h' <- vec_set h x k v ;; Done (vset1 w i (h', x))
  end.

Fixpoint vruns (w : vworld) (os : list vop) : outcome vworld :=
  match os with [] => Done w | o :: r => w' <- vstep w o ;; vruns w' r end.

End VectorMem.

Arguments vop : clear implicits.
Arguments vec : clear implicits.
Arguments vmem : clear implicits.
Arguments vworld : clear implicits.
