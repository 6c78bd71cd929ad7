(** The functions of the library that compose a String with sprintf, on the
    memory of StringMem.v.  The result is returned by value (and moved on by the
    callers, which does not touch the bytes). *)
From Coq Require Import Ascii String NArith ZArith QArith Bool PeanoNat List.
From Verif Require Import Base StringConv FloatConv Mem StringMem Printf.
Import ListNotations.
Local Open Scope nat_scope.

(** A string literal is an array of the program with a terminator. *)
Definition cstring (s : string) : ptr := Ext (lit s ++ [NUL]).

Section Messages.
Variables (W imax : nat) (strict : bool).
Local Notation sprintf := (sprintf W imax strict).

(** The two arguments for a view: slength() and data(). *)
Definition view_args (v : view) : outcome (list varg) :=
  p <- view_data v ;; Done [VInt CInt (to_int imax (v_length v)); VPtr p].

(** Bindings::execute, src/Coil.cpp:272. *)
Definition msg_unknown (h : mem) (name : view) : outcome (mem * str) :=
  a <- view_args name ;; sprintf h (cstring "No function '%.*s' is registered") a.

(** Bindings::execute, src/Coil.cpp:290. *)
Definition msg_exception (h : mem) (what : ptr) : outcome (mem * str) :=
  sprintf h (cstring "Exception caught during execution: %s") [VPtr what].

(** NamedArgs::get, src/Coil.cpp:389. *)
Definition msg_missing (h : mem) (key : view) : outcome (mem * str) :=
  a <- view_args key ;; sprintf h (cstring "Missing named argument '%.*s'") a.

(** DefaultLexer::tokenize, src/DefaultLexer.cpp:173 and 183; the char is promoted
    to int. *)
Definition msg_open_quote (sg : bool) (h : mem) (c : byte) : outcome (mem * str) :=
  sprintf h (cstring "Token '%c' doesn't have a corresponding opening/closing quote")
          [VInt CInt (char_val sg c)].
Definition msg_open_group (sg : bool) (h : mem) (c : byte) : outcome (mem * str) :=
  sprintf h (cstring "Token '%c' doesn't have a corresponding opening/closing token")
          [VInt CInt (char_val sg c)].

(** DefaultLexer::parse, src/DefaultLexer.cpp:204. *)
Definition msg_first_token (h : mem) (t : view) : outcome (mem * str) :=
  a <- view_args t ;;
  sprintf h (cstring "Unexpected token '%.*s' at the beginning of the expression") a.

(** coil::toString, src/StringConv.cpp:106-134; the types narrower than int are
    promoted to int. *)
Definition toString_mem (h : mem) (t : ctype) (v : Z) : outcome (mem * str) :=
  match t with
  | CChar | CSChar | CUChar | CShort | CUShort | CInt => sprintf h (cstring "%d") [VInt CInt v]
  | CLong => sprintf h (cstring "%ld") [VInt CLong v]
  | CLLong => sprintf h (cstring "%lld") [VInt CLLong v]
  | CUInt => sprintf h (cstring "%u") [VInt CUInt v]
  | CULong => sprintf h (cstring "%lu") [VInt CULong v]
  | CULLong => sprintf h (cstring "%llu") [VInt CULLong v]
  end.

(** coil::toString(float), toString(double) and toString(long double),
    src/StringConv.cpp:136-158; [long] says long double. *)
Definition toStringF_mem (h : mem) (long : bool) (v : fval) : outcome (mem * str) :=
  let zero := match v with
              | Fin neg m e => let q := signed neg (dyadic m e) in
                               Qltb (- lit_1e_6) q && Qltb q lit_1e_6
              | _ => false
              end in
  if zero then str_make_c W h (cstring "0")
  else if long then sprintf h (cstring "%Lg") [VLongDouble v]
  else sprintf h (cstring "%g") [VDouble v].

(** Value::str, src/Coil.cpp:446-458. *)
Fixpoint value_loop (h : mem) (result : str) (prefix : view) (subvalues : list view)
  : outcome (mem * str) :=
  match subvalues with
  | [] => Done (h, result)
  | v :: r =>
      hs <- str_append_view W h result prefix ;;
      hs <- str_append_view W (fst hs) (snd hs) v ;;
      value_loop (fst hs) (snd hs) (View (cstring " ") 1) r
  end.

Definition value_str_mem (h : mem) (subvalues : list view) : outcome (mem * str) :=
  hs <- str_make_c W h (cstring "") ;;
  value_loop (fst hs) (snd hs) (View (cstring "") 0) subvalues.

(** errors::createGenericError, src/Coil.cpp:483-491. *)
Definition generic_error_mem (h : mem) (typeName : view) (input : list view) (details : view)
  : outcome (mem * str) :=
  hr <- value_str_mem h input ;;
  let h1 := fst hr in
  let representation := snd hr in
  he <- (if v_length details =? 0 then
           t <- view_args typeName ;;
           sprintf h1 (cstring "Unable to convert '%s' to type '%.*s'")
                   (VPtr (m_ptr representation) :: t)
         else
           t <- view_args typeName ;;
           d <- view_args details ;;
           sprintf h1 (cstring "Unable to convert '%s' to type '%.*s': %.*s")
                   (VPtr (m_ptr representation) :: t ++ d)) ;;
  h' <- str_destroy (fst he) representation ;; Done (h', snd he).

(** errors::createMismatchedSubvaluesError, src/Coil.cpp:493-496. *)
Definition mismatch_error_mem (h : mem) (typeName : view) (input : list view) (expected : nat)
  : outcome (mem * str) :=
  hd <- sprintf h (cstring "Expected %zu subvalues, got %zu")
                [VSize expected; VSize (length input)] ;;
  d <- str_view (snd hd) ;;
  he <- generic_error_mem (fst hd) typeName input d ;;
  h' <- str_destroy (fst he) (snd hd) ;; Done (h', snd he).

(** Bindings::execute, src/Coil.cpp:300-311: the loop building expectedStr.
    [n] is functors.size(); arity() is a size_t, which is unsigned long. *)
Fixpoint expected_loop_mem (h : mem) (s : str) (i n : nat) (arities : list nat)
  : outcome (mem * str) :=
  match arities with
  | [] => Done (h, s)
  | a :: r =>
      hs <- (if (0 <? i) && negb (i =? n - 1) then str_append_c W h s (cstring ", ")
             else Done (h, s)) ;;
      hs <- (if (0 <? i) && (i =? n - 1) then str_append_c W (fst hs) (snd hs) (cstring " or ")
             else Done hs) ;;
      ht <- toString_mem (fst hs) CULong (Z.of_nat a) ;;
      ho <- str_append_str W (fst ht) (snd hs) (snd ht) ;;
      h' <- str_destroy (fst ho) (snd ht) ;;
      expected_loop_mem h' (snd ho) (S i) n r
  end.

(** Bindings::execute, src/Coil.cpp:300-314. *)
Definition msg_arity (h : mem) (name : view) (arities : list nat) (got : nat)
  : outcome (mem * str) :=
  hs <- str_make_c W h (cstring "") ;;
  hs <- str_reserve W (fst hs) (snd hs) (wmul W (length arities) 3) ;;
  hs <- expected_loop_mem (fst hs) (snd hs) 0 (length arities) arities ;;
  a <- view_args name ;;
  he <- sprintf (fst hs) (cstring "Wrong number of arguments to '%.*s': expected %s, got %zu")
                (a ++ [VPtr (m_ptr (snd hs)); VSize got]) ;;
  h' <- str_destroy (fst he) (snd hs) ;; Done (h', snd he).

End Messages.
