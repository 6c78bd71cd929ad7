(** coil::String and the functions that build texts when memory can run out:
    `new char[n]` of Buffer (src/Buffer.cpp:5) throws std::bad_alloc.  StringMem.v
    and Printf.v are the same code with an allocation that always succeeds.

    The sizes asked for are recorded, the latest first, and an arbitrary function
    [full] of this record decides whether the latest request fails.  Destructors,
    Buffer::swap (noexcept, src/Buffer.cpp:98) and the C library do not throw. *)
From Coq Require Import Ascii NArith ZArith Bool PeanoNat List.
From Verif Require Import Base Mem StringMem Printf.
Import ListNotations.

Section StringThrow.
Variable W : nat.
(** INT_MAX and the behaviour of vsnprintf at it, as in Printf.v. *)
Variable imax : nat.
Variable strict : bool.
Variable full : list nat -> bool.

Local Notation log := (list nat).

(** Buffer(size_t, size_t), src/Buffer.cpp:5-8; [None] if the allocation throws. *)
Definition y_buffer (h : mem) (t : log) (capacity chunkSize : nat)
  : outcome (mem * log * option str) :=
  let bytes := wmul W capacity chunkSize in
  if (0 <? bytes) && full (bytes :: t) then Done (h, bytes :: t, None)
  else hb <- buffer_make W h capacity chunkSize ;;
       Done (fst hb, if 0 <? bytes then bytes :: t else t, Some (snd hb)).

(** Buffer(Buffer const&), src/Buffer.cpp:10-15, which is the copy constructor of
    String. *)
Definition y_copy (h : mem) (t : log) (rhs : str) : outcome (mem * log * option str) :=
  r <- y_buffer h t (m_capacity rhs) (m_chunkSize rhs) ;;
  let '(h, t, o) := r in
  match o with
  | None => Done (h, t, None)
  | Some b =>
      _ <- assert_ (m_constructed rhs =? 0) ;;
      h <- buffer_copy W h b (m_ptr rhs) (wmul W (m_size rhs) (m_chunkSize b)) ;;
      Done (h, t, Some (Buffer (m_ptr b) (m_capacity b) (m_chunkSize b) (m_size rhs)
                               (m_constructed b)))
  end.

(** operator=(Buffer const&), src/Buffer.cpp:31-38. *)
Definition y_assign (h : mem) (t : log) (this rhs : str) : outcome (mem * log * str * bool) :=
  _ <- assert_ (m_constructed rhs =? 0) ;;
  r <- y_copy h t rhs ;;
  let '(h, t, o) := r in
  match o with
  | None => Done (h, t, this, true)
  | Some temp =>
      let '(this, temp) := buffer_assign_move this temp in
      h <- buffer_destroy false h temp ;; Done (h, t, this, false)
  end.

(** reserve, src/String.cpp:39-55. *)
Definition y_reserve (h : mem) (t : log) (s : str) (capacity : nat)
  : outcome (mem * log * str * bool) :=
  _ <- validate h s ;;
  let requiredBufferSize := wadd W capacity 1 in
  if m_capacity s <? requiredBufferSize then
    r <- y_buffer h t requiredBufferSize 1 ;;
    let '(h, t, o) := r in
    match o with
    | None => Done (h, t, s, true)
    | Some buffer =>
        h <- buffer_copy W h buffer (m_ptr s) (str_length s) ;;
        h <- store h (m_ptr buffer) (str_length s) (Some NUL) ;;
        buffer <- buffer_resize buffer (m_size s) ;;
        let '(this, old) := buffer_assign_move s buffer in
        h <- buffer_destroy false h old ;;
        _ <- validate h this ;;
        Done (h, t, this, false)
    end
  else _ <- validate h s ;; Done (h, t, s, false).

(** resize, src/String.cpp:84-97. *)
Definition y_resize (h : mem) (t : log) (s : str) (newSize : nat)
  : outcome (mem * log * str * bool) :=
  _ <- validate h s ;;
  r <- y_reserve h t s newSize ;;
  let '(h, t, s, thrown) := r in
  if thrown : bool then Done (h, t, s, true)
  else
    _ <- assert_ (wadd W newSize 1 <=? m_capacity s) ;;
    s <- buffer_resize s (wadd W newSize 1) ;;
    h <- store h (m_ptr s) newSize (Some NUL) ;;
    _ <- assert_ (m_size s =? wadd W newSize 1) ;;
    _ <- validate h s ;;
    Done (h, t, s, false).

(** String(char const ptr, size_t), src/String.cpp:12-20.  If resize throws, the
    member m_buffer is destroyed. *)
Definition y_make (h : mem) (t : log) (p : ptr) (n : nat) : outcome (mem * log * option str) :=
  r <- y_buffer h t 0 1 ;;
  let '(h, t, o) := r in
  match o with
  | None => Done (h, t, None)
  | Some s =>
      r <- y_resize h t s n ;;
      let '(h, t, s, thrown) := r in
      if thrown : bool then h <- buffer_destroy false h s ;; Done (h, t, None)
      else
        _ <- assert_ (match p with Null => false | _ => true end) ;;
        h <- buffer_copy W h s p n ;;
        _ <- validate h s ;;
        Done (h, t, Some s)
  end.

(** String(char const ptr), src/String.cpp:8, and String(StringView), :10. *)
Definition y_make_c (h : mem) (t : log) (p : ptr) : outcome (mem * log * option str) :=
  n <- strlen h p ;; y_make h t p n.

Definition y_make_view (h : mem) (t : log) (v : view) : outcome (mem * log * option str) :=
  p <- view_data v ;; y_make h t p (v_length v).

(** append, src/String.cpp:99-108. *)
Definition y_append (h : mem) (t : log) (s : str) (p : ptr) (n : nat)
  : outcome (mem * log * str * bool) :=
  _ <- validate h s ;;
  let oldSize := str_length s in
  r <- y_resize h t s (wadd W oldSize n) ;;
  let '(h, t, s, thrown) := r in
  if thrown : bool then Done (h, t, s, true)
  else
    h <- memcpy h (advance (m_ptr s) oldSize) p n ;;
    _ <- validate h s ;;
    Done (h, t, s, false).

(** What is added by operator+=, src/String.cpp:121-143: a character, a C string,
    a String, a StringView. *)
Inductive added :=
| AChar (c : byte)
| ACString (p : ptr)
| AString (rhs : str)
| AView (v : view).

Definition y_add (h : mem) (t : log) (s : str) (a : added) : outcome (mem * log * str * bool) :=
  match a with
  | AChar c => y_append h t s (Ext [c]) 1
  | ACString p => n <- strlen h p ;; y_append h t s p n
  | AString rhs => y_append h t s (m_ptr rhs) (str_length rhs)
  | AView v => p <- view_data v ;; y_append h t s p (v_length v)
  end.

(** operator+(String lhs, ...), src/String.cpp:173-191.  The parameter lhs is a
    copy of the argument [y].  [lhs += rhs] is a String&, so the result is another
    copy.  lhs is destroyed in any case. *)
Definition y_plus (h : mem) (t : log) (y : str) (a : added) : outcome (mem * log * option str) :=
  r <- y_copy h t y ;;
  let '(h, t, o) := r in
  match o with
  | None => Done (h, t, None)
  | Some lhs =>
      r <- y_add h t lhs a ;;
      let '(h, t, lhs, thrown) := r in
      if thrown : bool then h <- str_destroy h lhs ;; Done (h, t, None)
      else
        r <- y_copy h t lhs ;;
        let '(h, t, o) := r in
        h <- str_destroy h lhs ;; Done (h, t, o)
  end.

(** Context::log and Context::logline, src/Coil.cpp:339-349. *)
Definition y_log (h : mem) (t : log) (out s : str) : outcome (mem * log * str * bool) :=
  y_add h t out (AString s).

Definition y_logline (h : mem) (t : log) (out s : str) : outcome (mem * log * str * bool) :=
  r <- y_reserve h t out (wadd W (wadd W (str_length out) (str_length s)) 1) ;;
  let '(h, t, out, thrown) := r in
  if thrown : bool then Done (h, t, out, true)
  else
    r <- y_add h t out (AString s) ;;
    let '(h, t, out, thrown) := r in
    if thrown : bool then Done (h, t, out, true)
    else y_add h t out (AChar (ascii_of_N 10)).

(** vsprintf, src/Coil.cpp:606-621.  If resize throws, the local String is
    destroyed. *)
Definition y_vsprintf (h : mem) (t : log) (fmt : ptr) (args : list varg)
  : outcome (mem * log * option str) :=
  hr <- vsnprintf imax strict h Null 0 fmt args ;;
  let stringSize := to_size W (snd hr) in
  r <- y_make_c (fst hr) t (Ext [NUL]) ;;
  let '(h, t, o) := r in
  match o with
  | None => Done (h, t, None)
  | Some s =>
      r <- y_resize h t s stringSize ;;
      let '(h, t, s, thrown) := r in
      if thrown : bool then h <- str_destroy h s ;; Done (h, t, None)
      else
        hr <- vsnprintf imax strict h (m_ptr s) (wadd W (str_length s) 1) fmt args ;;
        _ <- assert_ ((0 <=? snd hr)%Z && (to_size W (snd hr) <=? str_length s)) ;;
        Done (fst hr, t, Some s)
  end.

(** Context::logf and Context::loglinef, src/Coil.cpp:351-365: the temporary
    String dies at the end of the statement or when an exception leaves it.
    (The exception also skips va_end, which is not modelled.) *)
Definition y_statement (add : mem -> log -> str -> str -> outcome (mem * log * str * bool))
  (h : mem) (t : log) (out : str) (fmt : ptr) (args : list varg)
  : outcome (mem * log * str * bool) :=
  r <- y_vsprintf h t fmt args ;;
  let '(h, t, o) := r in
  match o with
  | None => Done (h, t, out, true)
  | Some s =>
      r <- add h t out s ;;
      let '(h, t, out, thrown) := r in
      h <- str_destroy h s ;; Done (h, t, out, thrown)
  end.

Definition y_logf := y_statement y_log.
Definition y_loglinef := y_statement y_logline.

(** ** Programs

    After each operation the program sees whether it threw, and goes on
    accordingly. *)
Inductive rhs :=
| RChar (c : byte)
| RCString (src : bytes)
| RString (k : nat)                (* the variable z *)
| RView (k off n : nat).           (* StringView{z}.substr(off, n) *)

Inductive yop :=
| YOp (o : sop)
| YPlus (i j : nat) (r : rhs)      (* String x{y + rhs} *)
| YLogline (i j : nat).            (* logline(y), where x is the output *)

Inductive yprog :=
| YEnd
| YDo (o : yop) (next : bool -> yprog).

Definition y_new (w : world) (i : nat) (r : mem * log * option str) : world * log * bool :=
  let '(h, t, o) := r in
  (World h (put (w_str w) i o), t, match o with None => true | Some _ => false end).

Definition y_set (w : world) (i : nat) (r : mem * log * str * bool) : world * log * bool :=
  let '(h, t, s, thrown) := r in (World h (put (w_str w) i (Some s)), t, thrown).

Definition y_operand (w : world) (r : rhs) : outcome added :=
  match r with
  | RChar c => Done (AChar c)
  | RCString src => Done (ACString (Ext src))
  | RString k => z <- var w k ;; Done (AString z)
  | RView k off n => z <- var w k ;; v <- str_view z ;; v' <- view_substr W v off n ;;
                     Done (AView v')
  end.

Definition y_op (w : world) (t : log) (o : sop) : outcome (world * log * bool) :=
  let h := w_mem w in
  match o with
  | SMake i src n => _ <- unused w i ;; r <- y_make h t (Ext src) n ;; Done (y_new w i r)
  | SMakeC i src => _ <- unused w i ;; r <- y_make_c h t (Ext src) ;; Done (y_new w i r)
  | SMakeView i j off n =>
      _ <- unused w i ;; y <- var w j ;;
      v <- str_view y ;; v' <- view_substr W v off n ;;
      r <- y_make_view h t v' ;; Done (y_new w i r)
  | SCopy i j => _ <- unused w i ;; y <- var w j ;; r <- y_copy h t y ;; Done (y_new w i r)
  | SAssign i j => x <- var w i ;; y <- var w j ;; r <- y_assign h t x y ;; Done (y_set w i r)
  | SReserve i n => x <- var w i ;; r <- y_reserve h t x n ;; Done (y_set w i r)
  | SResize i n => x <- var w i ;; r <- y_resize h t x n ;; Done (y_set w i r)
  | SAppend i src n => x <- var w i ;; r <- y_append h t x (Ext src) n ;; Done (y_set w i r)
  | SAppendC i src => x <- var w i ;; r <- y_add h t x (ACString (Ext src)) ;; Done (y_set w i r)
  | SAppendChar i c => x <- var w i ;; r <- y_add h t x (AChar c) ;; Done (y_set w i r)
  | SAppendView i j off n =>
      x <- var w i ;; a <- y_operand w (RView j off n) ;;
      r <- y_add h t x a ;; Done (y_set w i r)
  | SAppendStr i j =>
      x <- var w i ;; a <- y_operand w (RString j) ;; r <- y_add h t x a ;; Done (y_set w i r)
  | SMove _ _ | SAssignMove _ _ | SDestroy _ | SFill _ _ _ =>
      w' <- sstep W w o ;; Done (w', t, false)
  end.

Definition y_step (w : world) (t : log) (o : yop) : outcome (world * log * bool) :=
  match o with
  | YOp o => y_op w t o
  | YPlus i j r => _ <- unused w i ;; y <- var w j ;; a <- y_operand w r ;;
                   r <- y_plus (w_mem w) t y a ;; Done (y_new w i r)
  | YLogline i j => x <- var w i ;; y <- var w j ;;
                    r <- y_logline (w_mem w) t x y ;; Done (y_set w i r)
  end.

(** The final state, the record of requests, and which operations threw. *)
Fixpoint y_runs (w : world) (t : log) (p : yprog) : outcome (world * log * list bool) :=
  match p with
  | YEnd => Done (w, t, [])
  | YDo o next =>
      r <- y_step w t o ;;
      let '(w', t', thrown) := r in
      r' <- y_runs w' t' (next thrown) ;;
      let '(w'', t'', trace) := r' in Done (w'', t'', thrown :: trace)
  end.

End StringThrow.
