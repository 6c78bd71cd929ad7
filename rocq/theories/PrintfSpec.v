(** What a formatted text is, and what the arguments of a call mean, without
    reference to the order in which sprintf works. *)
From Coq Require Import Ascii String NArith ZArith Bool PeanoNat List.
From Verif Require Import Base StringConv StringConvSpec SerializerSpec FloatConv Mem StringMem Printf.
Import ListNotations.

(** An argument as the programmer sees it: a number, a character, a C string, or
    a view given by its length and its address. *)
Inductive sarg : Type :=
| SInt (t : ctype) (v : Z)
| SSize (n : nat)
| SDouble (v : fval)
| SLongDouble (v : fval)
| SChar (c : byte)
| SStr (s : bytes)
| SView (s : bytes).

(** Integer types and the conversions for them. *)
Inductive int_conv : ctype -> bytes -> Prop :=
| ic_d : int_conv CInt (lit "%d")
| ic_ld : int_conv CLong (lit "%ld")
| ic_lld : int_conv CLLong (lit "%lld")
| ic_u : int_conv CUInt (lit "%u")
| ic_lu : int_conv CULong (lit "%lu")
| ic_llu : int_conv CULLong (lit "%llu").

(** [prints f args t]: the format [f] with the arguments [args] stands for the
    text [t].  What %g prints is the subject of P_Float.v. *)
Inductive prints : bytes -> list sarg -> bytes -> Prop :=
| prints_end : forall a, prints [] a []
| prints_char : forall c f a t,
    c <> "%"%char -> prints f a t -> prints (c :: f) a (c :: t)
| prints_percent : forall f a t, prints f a t -> prints (lit "%%" ++ f) a ("%"%char :: t)
| prints_c : forall c f a t, prints f a t -> prints (lit "%c" ++ f) (SChar c :: a) (c :: t)
| prints_int : forall ty w v d f a t,
    int_conv ty w -> canonical v d -> prints f a t ->
    prints (w ++ f) (SInt ty v :: a) (d ++ t)
| prints_size : forall n d f a t,
    canonical (Z.of_nat n) d -> prints f a t -> prints (lit "%zu" ++ f) (SSize n :: a) (d ++ t)
| prints_g : forall v f a t,
    prints f a t -> prints (lit "%g" ++ f) (SDouble v :: a) (printf_g v ++ t)
| prints_Lg : forall v f a t,
    prints f a t -> prints (lit "%Lg" ++ f) (SLongDouble v :: a) (printf_g v ++ t)
| prints_s : forall s f a t,
    prints f a t -> prints (lit "%s" ++ f) (SStr s :: a) (s ++ t)
| prints_view : forall s u f a t,
    before_nul s u -> prints f a t -> prints (lit "%.*s" ++ f) (SView s :: a) (u ++ t).

(** The bytes [s] can be read at [p]. *)
Definition points (h : mem) (p : ptr) (s : bytes) : Prop :=
  valid h p = Done tt /\ forall i c, nth_error s i = Some c -> load_value h p i = Done c.

(** [p] is a C string with the characters [s]. *)
Definition c_text (h : mem) (p : ptr) (s : bytes) : Prop :=
  points h p (s ++ [NUL]) /\ ~ In NUL s.

(** The arguments [args] of the call mean [a].  A character is passed as an int,
    negative for some characters if [char] is signed.  A view is passed as its
    length, converted to int, and its address. *)
Inductive given (imax : nat) (h : mem) : list varg -> list sarg -> Prop :=
| given_nil : given imax h [] []
| given_int : forall t v r a, (is_unsigned t = true -> 0 <= v)%Z ->
    given imax h r a -> given imax h (VInt t v :: r) (SInt t v :: a)
| given_size : forall n r a, given imax h r a -> given imax h (VSize n :: r) (SSize n :: a)
| given_double : forall v r a, given imax h r a -> given imax h (VDouble v :: r) (SDouble v :: a)
| given_long_double : forall v r a,
    given imax h r a -> given imax h (VLongDouble v :: r) (SLongDouble v :: a)
| given_char : forall sg c r a,
    given imax h r a -> given imax h (VInt CInt (char_val sg c) :: r) (SChar c :: a)
| given_str : forall p s r a,
    c_text h p s -> given imax h r a -> given imax h (VPtr p :: r) (SStr s :: a)
| given_view : forall p s r a,
    points h p s -> length s <= imax ->
    given imax h r a -> given imax h (VInt CInt (to_int imax (length s)) :: VPtr p :: r) (SView s :: a).

(** [h'] is [h] with one more block, which belongs to the String [s] alone; [s]
    has the bytes [t] and a terminator after them. *)
Record new_string (h h' : mem) (s : str) (t : bytes) : Prop := NewString {
  ns_length : str_length s = length t;
  ns_bytes : forall i c, nth_error t i = Some c -> load_value h' (m_ptr s) i = Done c;
  ns_end : load_value h' (m_ptr s) (length t) = Done NUL;
  ns_old : forall b cs, live h b cs -> live h' b cs /\ m_ptr s <> At b 0;
  ns_new : forall b cs, live h' b cs -> live h b cs \/ m_ptr s = At b 0;
  ns_destroy : exists h'', str_destroy h' s = Done h'' /\
                 forall b cs, live h'' b cs <-> live h b cs
}.

(** The bytes seen through a view. *)
Definition view_shows (h : mem) (v : view) (s : bytes) : Prop :=
  points h (v_str v) s /\ v_length v = length s.

(** The length of a text for which an int, an array index and (for [strict] C
    libraries) the size of the array including the terminator suffice. *)
Definition fits (W imax : nat) (strict : bool) (n : nat) : Prop :=
  n <= imax /\ (strict = true -> n < imax) /\ S (S imax) < W.

(** The String [s] has the bytes [t] and a terminator after them. *)
Definition text_in (h : mem) (s : str) (t : bytes) : Prop :=
  str_length s = length t /\
  (forall i c, nth_error t i = Some c -> load_value h (m_ptr s) i = Done c) /\
  load_value h (m_ptr s) (length t) = Done NUL.
