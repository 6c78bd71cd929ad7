(** Bytes, outcomes and the small pieces of the C library used everywhere. *)
From Coq Require Import Ascii String NArith ZArith Bool List.
Import ListNotations.

(** A C++ [char]/[unsigned char] value is a byte; strings are byte lists.
    NUL and non-ASCII bytes are ordinary bytes, as in coil::StringView. *)
Definition byte := ascii.
Definition bytes := list byte.

(** String literals of the C++ source. *)
Definition lit (s : string) : bytes := list_ascii_of_string s.

(** Ways in which a C++ operation can go wrong.  A failing COIL_ASSERT
    (include/coil/detail/Assert.h:1-14) and the undefined behaviour it guards in
    builds without asserts are both represented by [Fault]. *)
Inductive fault : Type :=
| AssertFailed      (* COIL_ASSERT(cond) with cond false *)
| OutOfBounds       (* access outside an array / string / allocation *)
| DivByZero         (* x % 0 *)
| NullDeref         (* dereference of a null pointer *)
| UseAfterFree      (* access through a dangling pointer *)
| BadLifetime       (* construction over a live object, destruction of a dead one, leak *)
| Overflow          (* size_t arithmetic whose wrap-around breaks the callee *)
| Diverges.         (* loop that does not terminate *)

Inductive outcome (A : Type) : Type :=
| Done (a : A)
| Fault (f : fault).
Arguments Done {A} _.
Arguments Fault {A} _.

Definition bind {A B} (x : outcome A) (k : A -> outcome B) : outcome B :=
  match x with Done a => k a | Fault f => Fault f end.

Notation "x <- e ;; k" := (bind e (fun x => k))
  (at level 61, e at next level, right associativity).

Definition assert_ (b : bool) : outcome unit :=
  if b then Done tt else Fault AssertFailed.

(** [Expected<T, String>] results (include/coil/detail/Expected.h:11-67) at the
    value level: a value or an error text. *)
Inductive expected (A : Type) : Type :=
| Value (a : A)
| Error (e : bytes).
Arguments Value {A} _.
Arguments Error {A} _.

(** Numeric value of a byte as [unsigned char]. *)
Definition uchar (c : byte) : N := N_of_ascii c.

(** Numeric value of a byte as [char]; [sg] says whether plain [char] is signed
    on the platform (it is on x86, it is not on ARM). *)
Definition char_val (sg : bool) (c : byte) : Z :=
  let n := Z.of_N (uchar c) in
  if sg && (128 <=? n)%Z then (n - 256)%Z else n.

(** The part of a byte string before its first NUL: what a C string function or
    a printf %s / %.*s conversion sees. *)
Fixpoint c_str (s : bytes) : bytes :=
  match s with
  | [] => []
  | c :: r => if N.eqb (uchar c) 0 then [] else c :: c_str r
  end.

(** Byte strings are compared byte by byte: operator==(StringView, StringView),
    src/StringView.cpp:61-69 (length test, then memcmp). *)
Definition bytes_eqb (a b : bytes) : bool :=
  (length a =? length b)%nat &&
  forallb (fun p => Ascii.eqb (fst p) (snd p)) (combine a b).

(** Hash<StringView>, src/StringView.cpp:76-86: djb2 on size_t (64 bit); the
    added [char] is converted to size_t, i.e. sign-extended if char is signed. *)
Definition two64 : Z := 18446744073709551616%Z.

Definition hash_step (sg : bool) (h : Z) (c : byte) : Z :=
  (((h * 32) mod two64 + h) mod two64 + char_val sg c) mod two64.

Definition hash_view (sg : bool) (s : bytes) : Z :=
  fold_left (hash_step sg) s 5381%Z.

(** Hash<String>, src/String.cpp:193-196: converts to StringView first
    (src/String.cpp:160-163). *)
Definition hash_string (sg : bool) (s : bytes) : Z := hash_view sg s.
