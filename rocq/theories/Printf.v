(** coil::sprintf and coil::vsprintf (src/Coil.cpp:595-621) on the memory of
    StringMem.v, with vsnprintf of the C library, and the functions of
    coil::Context that add text to the output (src/Coil.cpp:339-365). *)
From Coq Require Import Ascii String NArith ZArith Bool PeanoNat Lia List.
From Verif Require Import Base StringConv FloatConv Mem StringMem.
Import ListNotations.

(** An argument of a call with an ellipsis, after the default promotions.
    [VSize] is a size_t. *)
Inductive varg : Type :=
| VInt (t : ctype) (v : Z)
| VSize (n : nat)
| VDouble (v : fval)
| VLongDouble (v : fval)
| VPtr (p : ptr).

(** The conversion specifications that occur in the library. *)
Inductive conv : Type :=
| CvPercent                     (* %% *)
| CvChar                        (* %c *)
| CvInt (t : ctype)             (* %d %ld %lld %u %lu %llu *)
| CvSize                        (* %zu *)
| CvG                           (* %g *)
| CvLG                          (* %Lg *)
| CvStr                         (* %s *)
| CvView.                       (* %.*s *)

Definition conversions : list (bytes * conv) :=
  [(lit "%%", CvPercent); (lit "%c", CvChar);
   (lit "%d", CvInt CInt); (lit "%ld", CvInt CLong); (lit "%lld", CvInt CLLong);
   (lit "%u", CvInt CUInt); (lit "%lu", CvInt CULong); (lit "%llu", CvInt CULLong);
   (lit "%zu", CvSize); (lit "%g", CvG); (lit "%Lg", CvLG);
   (lit "%s", CvStr); (lit "%.*s", CvView)].

(** [s] without [w] in front of it. *)
Fixpoint strip (w s : bytes) : option bytes :=
  match w, s with
  | [], _ => Some s
  | a :: w, b :: s => if Ascii.eqb a b then strip w s else None
  | _ :: _, [] => None
  end.

(** The conversion specification a format begins with, and the rest. *)
Fixpoint find_conv (l : list (bytes * conv)) (f : bytes) : option (conv * bytes) :=
  match l with
  | [] => None
  | (w, c) :: l => match strip w f with Some r => Some (c, r) | None => find_conv l f end
  end.

(** A C string: the bytes before the terminator. *)
Definition read_str (h : mem) (p : ptr) : outcome bytes :=
  n <- strlen h p ;; view_bytes_from h p 0 n.

(** At most [k] bytes, none after a NUL: %s with a precision. *)
Fixpoint read_upto (h : mem) (p : ptr) (i k : nat) : outcome bytes :=
  match k with
  | 0 => Done []
  | S m => c <- load_value h p i ;;
           if Ascii.eqb c NUL then Done []
           else r <- read_upto h p (S i) m ;; Done (c :: r)
  end.

(** One conversion: its text and the remaining arguments.  An argument of
    another type than the conversion expects is undefined behaviour in C; it is a
    fault here.  A negative precision is taken as if it were missing (C17
    7.21.6.1, paragraph 5). *)
Definition convert (h : mem) (c : conv) (args : list varg) : outcome (bytes * list varg) :=
  match c, args with
  | CvPercent, _ => Done (lit "%", args)
  | CvChar, VInt CInt v :: r => Done ([ascii_of_N (Z.to_N (v mod 256))], r)
  | CvInt CInt, VInt CInt v :: r => Done (printf_d v, r)
  | CvInt CLong, VInt CLong v :: r => Done (printf_d v, r)
  | CvInt CLLong, VInt CLLong v :: r => Done (printf_d v, r)
  | CvInt CUInt, VInt CUInt v :: r => Done (printf_u v, r)
  | CvInt CULong, VInt CULong v :: r => Done (printf_u v, r)
  | CvInt CULLong, VInt CULLong v :: r => Done (printf_u v, r)
  | CvSize, VSize n :: r => Done (printf_zu n, r)
  | CvG, VDouble v :: r => Done (printf_g v, r)
  | CvLG, VLongDouble v :: r => Done (printf_g v, r)
  | CvStr, VPtr p :: r => t <- read_str h p ;; Done (t, r)
  | CvView, VInt CInt v :: VPtr p :: r =>
      t <- (if (v <? 0)%Z then read_str h p
            else _ <- valid h p ;; read_upto h p 0 (Z.to_nat v)) ;; Done (t, r)
  | _, _ => Fault BadLifetime
  end.

(** The whole text.  [fuel] is the length of the format.  Conversions outside
    the table are not modelled: a fault. *)
Fixpoint render (fuel : nat) (h : mem) (f : bytes) (args : list varg) : outcome bytes :=
  match f, fuel with
  | [], _ => Done []
  | _ :: _, 0 => Fault Diverges
  | c :: r, S n =>
      if Ascii.eqb c "%"%char then
        match find_conv conversions f with
        | None => Fault BadLifetime
        | Some (cv, rest) =>
            ta <- convert h cv args ;;
            u <- render n h rest (snd ta) ;; Done (fst ta ++ u)
        end
      else u <- render n h r args ;; Done (c :: u)
  end.

(** The block a pointer points into is that of [dst]: the call would write over
    its own arguments, which is undefined. *)
Definition same_block (p q : ptr) : bool :=
  match p, q with At b _, At b' _ => b =? b' | _, _ => false end.

Definition overwrites (dst : ptr) (a : varg) : bool :=
  match a with VPtr p => same_block dst p | _ => false end.

Section Printf.
Variable W : nat.           (* number of size_t values *)
Variable imax : nat.        (* INT_MAX *)
Variable strict : bool.     (* the C library refuses buffers of more than INT_MAX bytes, as POSIX says *)

(** static_cast<int>(length()): StringView::slength, src/StringView.cpp:19-22,
    String::slength, src/String.cpp:29-32. *)
Definition to_int (n : nat) : Z :=
  let m := n mod (2 * S imax) in
  if m <=? imax then Z.of_nat m else (Z.of_nat m - Z.of_nat (2 * S imax))%Z.

(** static_cast<size_t> of an int, src/Coil.cpp:610. *)
Definition to_size (v : Z) : nat := Z.to_nat (v mod Z.of_nat W).

(** vsnprintf(dst, n, fmt, args) of the C library, src/Coil.cpp:610 and 616: at most n - 1 bytes of the
    text and a terminator are written; the result is the length of the text, or
    negative if that is not an int.  (What is in the buffer then is unspecified;
    the callers below do not look.) *)
Definition vsnprintf (h : mem) (dst : ptr) (n : nat) (fmt : ptr) (args : list varg)
  : outcome (mem * Z) :=
  f <- read_str h fmt ;;
  t <- render (length f) h f args ;;
  if (strict && (imax <? n)) || (imax <? length t) then Done (h, (-1)%Z)
  else match n with
       | 0 => Done (h, Z.of_nat (length t))
       | S m =>
           if same_block dst fmt || existsb (overwrites dst) args then Fault OutOfBounds
           else h' <- store_n h dst 0 (map Some (firstn m t ++ [NUL])) ;;
                Done (h', Z.of_nat (length t))
       end.

(** vsprintf, src/Coil.cpp:606-621; String() is String(""),
    include/coil/detail/String.h:16. *)
Definition vsprintf (h : mem) (fmt : ptr) (args : list varg) : outcome (mem * str) :=
  hr <- vsnprintf h Null 0 fmt args ;;
  let stringSize := to_size (snd hr) in
  hs <- str_make_c W (fst hr) (Ext [NUL]) ;;
  hs <- str_resize W (fst hs) (snd hs) stringSize ;;
  let s := snd hs in
  hr <- vsnprintf (fst hs) (m_ptr s) (wadd W (str_length s) 1) fmt args ;;
  _ <- assert_ ((0 <=? snd hr)%Z && (to_size (snd hr) <=? str_length s)) ;;
  Done (fst hr, s).

(** sprintf, src/Coil.cpp:596-604. *)
Definition sprintf (h : mem) (fmt : ptr) (args : list varg) : outcome (mem * str) :=
  vsprintf h fmt args.

(** Context::log and Context::logline, src/Coil.cpp:339-349; [out] is
    m_callContext.result.output. *)
Definition ctx_log (h : mem) (out s : str) : outcome (mem * str) := str_append_str W h out s.

Definition ctx_logline (h : mem) (out s : str) : outcome (mem * str) :=
  ho <- str_reserve W h out (wadd W (wadd W (str_length out) (str_length s)) 1) ;;
  ho <- str_append_str W (fst ho) (snd ho) s ;;
  str_append_char W (fst ho) (snd ho) (ascii_of_N 10).

(** Context::logf and Context::loglinef, src/Coil.cpp:351-365: the temporary
    String dies at the end of the statement. *)
Definition ctx_logf (h : mem) (out : str) (fmt : ptr) (args : list varg) : outcome (mem * str) :=
  hs <- vsprintf h fmt args ;;
  ho <- ctx_log (fst hs) out (snd hs) ;;
  h' <- str_destroy (fst ho) (snd hs) ;; Done (h', snd ho).

Definition ctx_loglinef (h : mem) (out : str) (fmt : ptr) (args : list varg)
  : outcome (mem * str) :=
  hs <- vsprintf h fmt args ;;
  ho <- ctx_logline (fst hs) out (snd hs) ;;
  h' <- str_destroy (fst ho) (snd hs) ;; Done (h', snd ho).

End Printf.
