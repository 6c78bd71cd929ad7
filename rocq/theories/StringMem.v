(** coil::String on byte memory (include/coil/detail/String.h, src/String.cpp).
    A String is its Buffer [m_buffer]; functions take the heap and the buffer and
    return both. *)
From Coq Require Import Ascii ZArith Bool PeanoNat Lia List.
From Verif Require Import Base Mem.
Import ListNotations.

Definition NUL : byte := "000"%char.

Section StringMem.
Variable W : nat.

Definition str := buffer byte.
Definition mem := heap byte.
Definition ptr := pointer byte.

(** strlen of the C library, used at src/String.cpp:8, 129 and src/StringView.cpp:7: [fuel] bounds the scan, which ends at the first NUL
    or leaves the object (a fault). *)
Fixpoint strlen_from (h : mem) (p : ptr) (i fuel : nat) : outcome nat :=
  match fuel with
  | 0 => Fault Diverges
  | S n => c <- load_value h p i ;;
           if Ascii.eqb c NUL then Done 0
           else r <- strlen_from h p (S i) n ;; Done (S r)
  end.

(** The scan leaves any object after as many steps as it has cells. *)
Definition object_size (h : mem) (p : ptr) : nat :=
  match p with
  | Null => 0
  | Ext l => length l
  | At b _ => match nth_error (blocks h) b with Some (Some cs) => length cs | _ => 0 end
  end.

Definition strlen (h : mem) (p : ptr) : outcome nat :=
  strlen_from h p 0 (S (object_size h p)).

(** coil::StringView: include/coil/detail/StringView.h:27-29. *)
Record view := View { v_str : ptr; v_length : nat }.

(** StringView(char const ptr, size_t), src/StringView.cpp:9-12. *)
Definition view_make (p : ptr) (n : nat) : outcome view :=
  _ <- assert_ (match p with Null => false | _ => true end) ;; Done (View p n).

(** StringView::substr, src/StringView.cpp:35-41. *)
Definition view_substr (v : view) (offset n : nat) : outcome view :=
  _ <- assert_ (offset <=? v_length v) ;;
  _ <- assert_ (n <=? v_length v) ;;
  _ <- assert_ (wadd W offset n <=? v_length v) ;;
  view_make (advance (v_str v) offset) n.

(** length, src/String.cpp:22-27. *)
Definition str_length (s : str) : nat :=
  if 0 <? m_size s then m_size s - 1 else 0.

(** end (with begin), src/String.cpp:110-119. *)
Definition str_end (s : str) : outcome ptr :=
  _ <- assert_ (negb (m_size s =? 0)) ;;
  Done (advance (m_ptr s) (str_length s)).

(** validateIsNullTerminated, src/String.cpp:165-171. *)
Definition validate (h : mem) (s : str) : outcome unit :=
  if 0 <? m_size s then
    e <- str_end s ;;
    c <- load_value h e 0 ;;
    assert_ (Ascii.eqb c NUL)
  else Done tt.

(** reserve, src/String.cpp:39-55.  The local [buffer] ends up with the old
    storage, which its destructor frees. *)
Definition str_reserve (h : mem) (s : str) (capacity : nat) : outcome (mem * str) :=
  _ <- validate h s ;;
  let requiredBufferSize := wadd W capacity 1 in
  hs <- (if m_capacity s <? requiredBufferSize then
           hb <- buffer_make W h requiredBufferSize 1 ;;
           h1 <- buffer_copy W (fst hb) (snd hb) (m_ptr s) (str_length s) ;;
           h2 <- store h1 (m_ptr (snd hb)) (str_length s) (Some NUL) ;;
           nb <- buffer_resize (snd hb) (m_size s) ;;
           let '(this, old) := buffer_assign_move s nb in
           h3 <- buffer_destroy false h2 old ;;
           Done (h3, this)
         else Done (h, s)) ;;
  _ <- validate (fst hs) (snd hs) ;;
  Done hs.

(** resize, src/String.cpp:84-97. *)
Definition str_resize (h : mem) (s : str) (newSize : nat) : outcome (mem * str) :=
  _ <- validate h s ;;
  hs <- str_reserve h s newSize ;;
  _ <- assert_ (wadd W newSize 1 <=? m_capacity (snd hs)) ;;
  s' <- buffer_resize (snd hs) (wadd W newSize 1) ;;
  h' <- store (fst hs) (m_ptr s') newSize (Some NUL) ;;
  _ <- assert_ (m_size s' =? wadd W newSize 1) ;;
  _ <- validate h' s' ;;
  Done (h', s').

(** String(char const ptr, size_t), src/String.cpp:12-20; m_buffer is Buffer(),
    include/coil/detail/String.h:51 and Buffer.h:14. *)
Definition str_make (h : mem) (p : ptr) (n : nat) : outcome (mem * str) :=
  hb <- buffer_make W h 0 1 ;;
  hs <- str_resize (fst hb) (snd hb) n ;;
  _ <- assert_ (match p with Null => false | _ => true end) ;;
  h' <- buffer_copy W (fst hs) (snd hs) p n ;;
  _ <- validate h' (snd hs) ;;
  Done (h', snd hs).

(** String(char const ptr), src/String.cpp:8. *)
Definition str_make_c (h : mem) (p : ptr) : outcome (mem * str) :=
  n <- strlen h p ;; str_make h p n.

(** StringView::data, src/StringView.cpp:29-33, and String(StringView),
    src/String.cpp:10. *)
Definition view_data (v : view) : outcome ptr :=
  _ <- assert_ (match v_str v with Null => false | _ => true end) ;; Done (v_str v).

Definition str_make_view (h : mem) (v : view) : outcome (mem * str) :=
  p <- view_data v ;; str_make h p (v_length v).

(** operator StringView, src/String.cpp:160-163. *)
Definition str_view (s : str) : outcome view := view_make (m_ptr s) (str_length s).

(** append, src/String.cpp:99-108. *)
Definition str_append (h : mem) (s : str) (p : ptr) (n : nat) : outcome (mem * str) :=
  _ <- validate h s ;;
  let oldSize := str_length s in
  hs <- str_resize h s (wadd W oldSize n) ;;
  h' <- memcpy (fst hs) (advance (m_ptr (snd hs)) oldSize) p n ;;
  _ <- validate h' (snd hs) ;;
  Done (h', snd hs).

(** operator+=(char), src/String.cpp:121-125: the argument is a parameter of the
    call, so its address is foreign memory. *)
Definition str_append_char (h : mem) (s : str) (c : byte) : outcome (mem * str) :=
  str_append h s (Ext [c]) 1.

(** operator+=(char const ptr), src/String.cpp:127-131. *)
Definition str_append_c (h : mem) (s : str) (p : ptr) : outcome (mem * str) :=
  n <- strlen h p ;; str_append h s p n.

(** operator+=(String const&), src/String.cpp:133-137; [rhs] may be [s]. *)
Definition str_append_str (h : mem) (s rhs : str) : outcome (mem * str) :=
  str_append h s (m_ptr rhs) (str_length rhs).

(** operator+=(StringView const&), src/String.cpp:139-143. *)
Definition str_append_view (h : mem) (s : str) (v : view) : outcome (mem * str) :=
  p <- view_data v ;; str_append h s p (v_length v).

(** memcmp(p, q, n) == 0, src/StringView.cpp:68. *)
Fixpoint memcmp_eq (h : mem) (p q : ptr) (i n : nat) : outcome bool :=
  match n with
  | 0 => Done true
  | S m => a <- load_value h p i ;; b <- load_value h q i ;;
           if Ascii.eqb a b then memcmp_eq h p q (S i) m else Done false
  end.

(** operator==(StringView, StringView), src/StringView.cpp:61-69. *)
Definition view_eq (h : mem) (a b : view) : outcome bool :=
  if negb (v_length a =? v_length b) then Done false
  else p <- view_data a ;; q <- view_data b ;;
       _ <- valid h p ;; _ <- valid h q ;;
       memcmp_eq h p q 0 (v_length a).

(** String::operator==(String const&), src/String.cpp:145-148. *)
Definition str_eq (h : mem) (a b : str) : outcome bool :=
  va <- str_view a ;; vb <- str_view b ;; view_eq h va vb.

(** The bytes a view shows, read one by one (e.g. by a range-for). *)
Fixpoint view_bytes_from (h : mem) (p : ptr) (i n : nat) : outcome bytes :=
  match n with
  | 0 => Done []
  | S m => a <- load_value h p i ;; r <- view_bytes_from h p (S i) m ;; Done (a :: r)
  end.

Definition view_bytes (h : mem) (v : view) : outcome bytes :=
  p <- view_data v ;; view_bytes_from h p 0 (v_length v).

(** Hash<StringView>, src/StringView.cpp:76-86, reading memory; [sg] says whether
    char is signed. *)
Fixpoint hash_from (sg : bool) (h : mem) (p : ptr) (i n : nat) (acc : Z) : outcome Z :=
  match n with
  | 0 => Done acc
  | S m => c <- load_value h p i ;; hash_from sg h p (S i) m (hash_step sg acc c)
  end.

Definition view_hash (sg : bool) (h : mem) (v : view) : outcome Z :=
  p <- view_data v ;; hash_from sg h p 0 (v_length v) 5381%Z.

(** Hash<String>, src/String.cpp:193-196. *)
Definition str_hash (sg : bool) (h : mem) (s : str) : outcome Z :=
  v <- str_view s ;; view_hash sg h v.

(** Writing through data(), src/String.cpp:62-65 (as sprintf does,
    src/Coil.cpp:614-616). *)
Definition str_fill (h : mem) (s : str) (offset : nat) (l : bytes) : outcome mem :=
  store_n h (m_ptr s) offset (map Some l).

(** The implicit copy and move operations of String, String.h:13-52, use those of Buffer,
    Buffer.h:15-20. *)
Definition str_copy (h : mem) (rhs : str) : outcome (mem * str) := buffer_copy_ctor W h rhs.
Definition str_move (rhs : str) : str * str := buffer_move_ctor rhs.
Definition str_assign (h : mem) (this rhs : str) : outcome (mem * str) :=
  buffer_assign W h this rhs.
Definition str_assign_move (this rhs : str) : str * str := buffer_assign_move this rhs.
Definition str_destroy (h : mem) (s : str) : outcome mem := buffer_destroy false h s.

(** ** Programs with any number of strings *)

Record world := World { w_mem : mem; w_str : nat -> option str }.

Definition start : world := World empty_heap (fun _ => None).

Definition put (f : nat -> option str) (i : nat) (o : option str) : nat -> option str :=
  fun j => if j =? i then o else f j.

(** One use of a String object, by the name [i] of the variable. *)
Inductive sop : Type :=
| SMake (i : nat) (src : bytes) (n : nat)       (* String x{p, n}, p -> src *)
| SMakeC (i : nat) (src : bytes)                (* String x{p}, p -> src *)
| SMakeView (i j off n : nat)                   (* String x{StringView{y}.substr(off, n)} *)
| SCopy (i j : nat)                             (* String x{y} *)
| SMove (i j : nat)                             (* String x{move(y)} *)
| SAssign (i j : nat)                           (* x = y *)
| SAssignMove (i j : nat)                       (* x = move(y) *)
| SDestroy (i : nat)                            (* end of life of x *)
| SReserve (i n : nat)
| SResize (i n : nat)
| SFill (i off : nat) (l : bytes)               (* writes through x.data() *)
| SAppend (i : nat) (src : bytes) (n : nat)     (* x.append(p, n), p -> src *)
| SAppendC (i : nat) (src : bytes)              (* x += p, p -> src *)
| SAppendChar (i : nat) (c : byte)              (* x += c *)
| SAppendView (i j off n : nat)                 (* x += StringView{y}.substr(off, n) *)
| SAppendStr (i j : nat).                       (* x += y *)

(** Use of a variable that is not alive is an error of the program, not of the
    library; it is a fault here as well. *)
Definition var (w : world) (i : nat) : outcome str :=
  match w_str w i with Some s => Done s | None => Fault UseAfterFree end.

Definition unused (w : world) (i : nat) : outcome unit :=
  match w_str w i with Some _ => Fault BadLifetime | None => Done tt end.

Definition set1 (w : world) (i : nat) (hs : mem * str) : world :=
  World (fst hs) (put (w_str w) i (Some (snd hs))).

Definition sstep (w : world) (o : sop) : outcome world :=
  let h := w_mem w in
  match o with
  | SMake i src n => _ <- unused w i ;; hs <- str_make h (Ext src) n ;; Done (set1 w i hs)
  | SMakeC i src => _ <- unused w i ;; hs <- str_make_c h (Ext src) ;; Done (set1 w i hs)
  | SMakeView i j off n =>
      _ <- unused w i ;; y <- var w j ;;
      v <- str_view y ;; v' <- view_substr v off n ;;
      hs <- str_make_view h v' ;; Done (set1 w i hs)
  | SCopy i j => _ <- unused w i ;; y <- var w j ;;
                 hs <- str_copy h y ;; Done (set1 w i hs)
  | SMove i j => _ <- unused w i ;; y <- var w j ;;
                 let '(new, old) := str_move y in
                 Done (World h (put (put (w_str w) j (Some old)) i (Some new)))
  | SAssign i j => x <- var w i ;; y <- var w j ;;
                   hs <- str_assign h x y ;; Done (set1 w i hs)
  | SAssignMove i j => x <- var w i ;; y <- var w j ;;
                       let '(new, old) := str_assign_move x y in
                       Done (World h (put (put (w_str w) j (Some old)) i (Some new)))
  | SDestroy i => x <- var w i ;; h' <- str_destroy h x ;;
                  Done (World h' (put (w_str w) i None))
  | SReserve i n => x <- var w i ;; hs <- str_reserve h x n ;; Done (set1 w i hs)
  | SResize i n => x <- var w i ;; hs <- str_resize h x n ;; Done (set1 w i hs)
  | SFill i off l => x <- var w i ;; h' <- str_fill h x off l ;; Done (set1 w i (h', x))
  | SAppend i src n => x <- var w i ;; hs <- str_append h x (Ext src) n ;; Done (set1 w i hs)
  | SAppendC i src => x <- var w i ;; hs <- str_append_c h x (Ext src) ;; Done (set1 w i hs)
  | SAppendChar i c => x <- var w i ;; hs <- str_append_char h x c ;; Done (set1 w i hs)
  | SAppendView i j off n =>
      x <- var w i ;; y <- var w j ;;
      v <- str_view y ;; v' <- view_substr v off n ;;
      hs <- str_append_view h x v' ;; Done (set1 w i hs)
  | SAppendStr i j => x <- var w i ;; y <- var w j ;;
                      hs <- str_append_str h x y ;; Done (set1 w i hs)
  end.

Fixpoint sruns (w : world) (os : list sop) : outcome world :=
  match os with [] => Done w | o :: r => w' <- sstep w o ;; sruns w' r end.

End StringMem.
