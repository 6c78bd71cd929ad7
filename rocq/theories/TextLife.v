(** Model of the lifetimes of command texts and of the views into them.  The other files let
    a StringView be the bytes it refers to; here it is a place in a text that may have been
    changed or freed since.  Covers the conversions that keep views instead of copying
    (src/Coil.cpp:427-496, 564-588, include/coil/StdLibCompat.h:17-175), the temporary Value
    objects they create, variables bound with coil::variable
    (include/coil/detail/Variable.h), and Bindings::execute as far as it deals with such
    variables (src/Coil.cpp:240-316). *)
From Coq Require Import Ascii String NArith ZArith Bool PeanoNat List.
Import ListNotations.
From Verif Require Import Util Base Lexer StringConv Serializer UMap.

Local Notation length := List.length.

(** A StringView (include/coil/detail/StringView.h:28-30): which text it points into, and
    where.  The default StringView "" is a view of length 0. *)
Record sview := SView { sv_text : nat; sv_view : view }.

(** The texts of the application and the coil::Value objects (include/coil/detail/Value.h:15-43)
    by identity; [None] is one whose lifetime has ended. *)
Record mem := Mem { m_texts : list (option bytes); m_values : list (option (list sview)) }.

(** Reading the characters of a view, as String{view}, operator+=, memcmp, sprintf and the
    conversions do.  Nothing is read through a view of length 0. *)
Definition read_view (m : mem) (v : sview) : outcome bytes :=
  if v_len (sv_view v) =? 0 then Done []
  else
    match nth_error (m_texts m) (sv_text v) with
    | Some (Some b) =>
        if v_off (sv_view v) + v_len (sv_view v) <=? length b
        then Done (view_bytes b (sv_view v)) else Fault OutOfBounds
    | Some None => Fault UseAfterFree
    | None => Fault OutOfBounds
    end.

Fixpoint read_all (m : mem) (vs : list sview) : outcome value :=
  match vs with
  | [] => Done []
  | v :: r => b <- read_view m v ;; bs <- read_all m r ;; Done (b :: bs)
  end.

(** Access to a Value through a reference or a ReferenceWrapper
    (include/coil/detail/Functional.h:6-23). *)
Definition deref (m : mem) (r : nat) : outcome (list sview) :=
  match nth_error (m_values m) r with
  | Some (Some vs) => Done vs
  | Some None => Fault UseAfterFree
  | None => Fault NullDeref
  end.

(** Construction and destruction of a Value, src/Coil.cpp:428-434. *)
Definition new_value (m : mem) (vs : list sview) : mem * nat :=
  (Mem (m_texts m) (m_values m ++ [Some vs]), length (m_values m)).
Definition free_value (m : mem) (r : nat) : mem :=
  Mem (m_texts m) (set_nth (m_values m) r None).

(** * Types *)

(** The types with a TypeSerializer.  [TScalar T] is any type whose conversion keeps none of
    the views it is given: the arithmetic types, bool, and such types of the user; [TString]
    is String and std::string, [TView] is StringView and std::string_view. *)
Inductive ty :=
| TScalar (T : serializer)
| TString
| TView
| TValue
| TVector (t : ty)
| TOptional (t : ty).

(** Objects of a type. *)
Fixpoint obj (t : ty) : Type :=
  match t with
  | TScalar T => carrier T
  | TString => bytes
  | TView => sview
  | TValue => list sview
  | TVector t => list (obj t)
  | TOptional t => option (obj t)
  end.

(** What TypeSerializer<T>::fromString returns on success: a T, but for Value a
    ReferenceWrapper<Value const> (include/coil/detail/Value.h:45-50). *)
Definition converted (t : ty) : Type :=
  match t with TValue => nat | t => obj t end.

(** TypeName<T>::name. *)
Fixpoint type_name (t : ty) : bytes :=
  match t with
  | TScalar T => tname T
  | TString | TView => lit "string"
  | TValue => lit "coil::Value"
  | TVector t => lit "vector<" ++ type_name t ++ lit ">"
  | TOptional t => lit "optional<" ++ type_name t ++ lit ">"
  end.

(** From the result of fromString to a T: the conversion ReferenceWrapper::operator T&
    (Functional.h:15-18) and the copy made from it for Value, a move for the others. *)
Definition take (m : mem) (t : ty) : converted t -> outcome (obj t) :=
  match t with
  | TValue => fun r => deref m r
  | TScalar T => fun x => Done x
  | TString => fun x => Done x
  | TView => fun x => Done x
  | TVector t => fun x => Done x
  | TOptional t => fun x => Done x
  end.

(** The loop of TypeSerializer<std::vector<T>>::fromString, StdLibCompat.h:51-57: the
    StringView is converted to a temporary Value, which lives until the end of the full
    expression :53. *)
Section VectorLoop.
Variable t : ty.
Variable from : mem -> nat -> outcome (mem * expected (converted t)).
Variable name : bytes.
Variable input : nat.
Fixpoint vector_from (m : mem) (rest : list sview) (result : list (obj t))
  : outcome (mem * expected (list (obj t))) :=
  match rest with
  | [] => Done (m, Value result)
  | v :: rest =>
      let '(m, temporary) := new_value m [v] in
      r <- from m temporary ;;
      let '(m, expectedArg) := r in
      let m := free_value m temporary in
      match expectedArg with
      | Error e =>
          vs <- deref m input ;;
          bs <- read_all m vs ;;
          Done (m, Error (createGenericError name bs e))
      | Value c => x <- take m t c ;; vector_from m rest (result ++ [x])
      end
  end.
End VectorLoop.

(** The error of the types that want exactly one sub-value, src/Coil.cpp:493-496. *)
Definition mismatch {A} (m : mem) (name : bytes) (vs : list sview) : outcome (mem * expected A) :=
  bs <- read_all m vs ;; Done (m, Error (createMismatchedSubvaluesError name bs 1)).

(** TypeSerializer<T>::fromString: src/Coil.cpp:460-463 (Value), 564-570 (String), 577-583
    (StringView), StdLibCompat.h:147-153, 161-167 (the std strings), 46-60 (vector), 93-107
    (optional).  [input] is the Value referred to. *)
Fixpoint fromString (t : ty) (m : mem) (input : nat) : outcome (mem * expected (converted t)) :=
  match t with
  | TScalar T =>
      vs <- deref m input ;; bs <- read_all m vs ;; Done (m, from_value T bs)
  | TString =>
      vs <- deref m input ;;
      match vs with
      | [v] => b <- read_view m v ;; Done (m, Value b)
      | _ => mismatch m (lit "string") vs
      end
  | TView =>
      vs <- deref m input ;;
      match vs with
      | [v] => Done (m, Value v)
      | _ => mismatch m (lit "string") vs
      end
  | TValue => Done (m, Value input)
  | TVector t =>
      vs <- deref m input ;;
      vector_from t (fromString t) (type_name (TVector t)) input m vs []
  | TOptional t =>
      vs <- deref m input ;;
      match vs with
      | [] => Done (m, Value None)
      | v :: _ =>
          if v_len (sv_view v) =? 0 then Done (m, Value None)
          else
            let '(m, temporary) := new_value m [v] in
            r <- fromString t m temporary ;;
            let '(m, innerValue) := r in
            let m := free_value m temporary in
            match innerValue with
            | Value c => x <- take m t c ;; Done (m, Value (Some x))
            | Error e =>
                vs <- deref m input ;;
                bs <- read_all m vs ;;
                Done (m, Error (createGenericError (type_name (TOptional t)) bs e))
            end
      end
  end.

(** The loop of TypeSerializer<std::vector<T>>::toString, StdLibCompat.h:67-73. *)
Section VectorText.
Variable t : ty.
Variable text : obj t -> outcome bytes.
Fixpoint vector_to (result separator : bytes) (xs : list (obj t)) : outcome bytes :=
  match xs with
  | [] => Done (result ++ lit "]")
  | x :: r => s <- text x ;; vector_to ((result ++ separator) ++ s) (lit ", ") r
  end.
End VectorText.

(** TypeSerializer<T>::toString: src/Coil.cpp:446-458, 465-468, 572-588,
    StdLibCompat.h:62-76, 108-114, 155-175. *)
Fixpoint toString (m : mem) (t : ty) : obj t -> outcome bytes :=
  match t with
  | TScalar T => fun x => Done (to_text T x)
  | TString => fun b => Done b
  | TView => fun v => read_view m v
  | TValue => fun vs => bs <- read_all m vs ;; Done (value_str bs)
  | TVector t => fun xs => vector_to t (toString m t) (lit "[") (lit "") xs
  | TOptional t => fun o => match o with None => Done [] | Some x => toString m t x end
  end.

(** * Variables *)

(** A variable of the application bound by bindings[name] = coil::variable(&object). *)
Record var := Var { x_name : bytes; x_type : ty; x_obj : obj x_type }.

(** ExecutionResult (include/coil/detail/ExecutionResult.h:10-16): its input consists of
    views. *)
Record vresult := VResult {
  vr_name : sview;
  vr_args : list (list sview);
  vr_named : list (sview * list sview);
  vr_errors : list bytes;
  vr_return : option bytes
}.

(** The two functors of coil::variable (Variable.h:9-19) called as execute and
    FunctorCaller.h:25-43 do, or the arity error of src/Coil.cpp:300-315; [args] are the
    Values of context.input.arguments.  Errors and returned text. *)
Definition invoke_variable (m : mem) (args : list nat) (x : var)
  : outcome (var * (mem * list bytes * option bytes)) :=
  match args with
  | [] => t <- toString m (x_type x) (x_obj x) ;; Done (x, (m, [], Some t))
  | [a] =>
      r <- fromString (x_type x) m a ;;
      let '(m, expectedArg) := r in
      match expectedArg with
      | Error e => Done (x, (m, [e], None))
      | Value c =>
          val <- take m (x_type x) c ;;
          t <- toString m (x_type x) val ;;
          Done (Var (x_name x) (x_type x) val, (m, [], Some t))
      end
  | _ => Done (x, (m, [lit "Wrong number of arguments to '" ++ c_str (x_name x) ++
                       lit "': expected 0 or 1, got " ++ printf_zu (length args)], None))
  end.

(** m_commands.find and the call of what it finds, src/Coil.cpp:261-316. *)
Fixpoint on_variable {A} (f : var -> outcome (var * A)) (vars : list var) (name : bytes)
  : outcome (option (list var * A)) :=
  match vars with
  | [] => Done None
  | x :: r =>
      if bytes_eqb (x_name x) name then y <- f x ;; Done (Some (fst y :: r, snd y))
      else
        y <- on_variable f r name ;;
        Done (match y with None => None | Some (r', a) => Some (x :: r', a) end)
  end.

(** A view the lexer made, as a view of text [i]. *)
Definition in_text (i : nat) (v : view) : sview := SView i v.

(** The Value objects of input.arguments, ExecutionInput.h:12. *)
Fixpoint new_values (m : mem) (args : list (list sview)) : mem * list nat :=
  match args with
  | [] => (m, [])
  | a :: r => let '(m, i) := new_value m a in let '(m, is) := new_values m r in (m, i :: is)
  end.

Record world := World { w_mem : mem; w_vars : list var }.

Section Execute.
(** Signedness of char and lexer configuration. *)
Variable sg : bool.
Variable cfg : lexer_cfg.

(** Bindings::execute(StringView) on text [i], src/Coil.cpp:240-316.  The Value objects of
    the arguments are moved into the result at the end (:244), so that references to them
    do not outlive the call.  Simplified: nothing but variables is registered; commands do
    not execute commands. *)
Definition execute (w : world) (i : nat) : outcome (world * vresult) :=
  match nth_error (m_texts (w_mem w)) i with
  | None => Fault OutOfBounds
  | Some None => Fault UseAfterFree
  | Some (Some cmd) =>
      p <- parse sg cfg cmd ;;
      match p with
      | Error e =>
          Done (w, VResult (in_text i (View 0 0)) [] [] [lit "Syntax error: " ++ e] None)
      | Value vi =>
          let name := in_text i (vi_name vi) in
          let args := map (map (in_text i)) (vi_args vi) in
          let named := map (fun kv => (in_text i (fst kv), map (in_text i) (snd kv))) (vi_named vi) in
          let '(m, refs) := new_values (w_mem w) args in
          n <- read_view m name ;;
          match n with
          | [] =>
              Done (World (fold_left free_value refs m) (w_vars w),
                    VResult name args named [lit "No function name is specified"] None)
          | _ =>
              r <- on_variable (invoke_variable m refs) (w_vars w) n ;;
              match r with
              | None =>
                  Done (World (fold_left free_value refs m) (w_vars w),
                        VResult name args named
                          [lit "No function '" ++ c_str n ++ lit "' is registered"] None)
              | Some (vars, (m, es, t)) =>
                  Done (World (fold_left free_value refs m) vars, VResult name args named es t)
              end
          end
      end
  end.

(** * Sessions *)

(** What an application does between and with its commands: create, overwrite and free the
    texts it keeps its commands in; execute one of them; look at the input of a result it
    has kept. *)
Inductive op :=
| ONew (b : bytes)
| OEdit (i : nat) (b : bytes)
| OFree (i : nat)
| OExecute (i : nat)
| OLook (k : nat).

(** What it gets: errors and return value of a command, or the input of a result. *)
Inductive seen :=
| SAnswer (errors : list bytes) (return_ : option bytes)
| SInput (i : input).

Definition alive (m : mem) (i : nat) : bool :=
  match nth_error (m_texts m) i with Some (Some _) => true | _ => false end.

Definition set_text (m : mem) (i : nat) (t : option bytes) : mem :=
  Mem (set_nth (m_texts m) i t) (m_values m).

Fixpoint read_named (m : mem) (l : list (sview * list sview)) : outcome (list (bytes * value)) :=
  match l with
  | [] => Done []
  | (k, v) :: r =>
      kb <- read_view m k ;; vb <- read_all m v ;; rs <- read_named m r ;; Done ((kb, vb) :: rs)
  end.

Fixpoint read_args (m : mem) (l : list (list sview)) : outcome (list value) :=
  match l with
  | [] => Done []
  | v :: r => vb <- read_all m v ;; rs <- read_args m r ;; Done (vb :: rs)
  end.

(** Reading everything ExecutionResult::input, ExecutionResult.h:12, refers to. *)
Definition look (m : mem) (r : vresult) : outcome input :=
  n <- read_view m (vr_name r) ;;
  a <- read_args m (vr_args r) ;;
  k <- read_named m (vr_named r) ;;
  Done (Input n a k).

Definition step (w : world) (kept : list vresult) (o : op)
  : outcome (world * list vresult * list seen) :=
  match o with
  | ONew b =>
      Done (World (Mem (m_texts (w_mem w) ++ [Some b]) (m_values (w_mem w))) (w_vars w), kept, [])
  | OEdit i b =>
      if alive (w_mem w) i then Done (World (set_text (w_mem w) i (Some b)) (w_vars w), kept, [])
      else Fault UseAfterFree
  | OFree i =>
      if alive (w_mem w) i then Done (World (set_text (w_mem w) i None) (w_vars w), kept, [])
      else Fault BadLifetime
  | OExecute i =>
      r <- execute w i ;;
      Done (fst r, kept ++ [snd r], [SAnswer (vr_errors (snd r)) (vr_return (snd r))])
  | OLook k =>
      match nth_error kept k with
      | None => Fault OutOfBounds
      | Some r => i <- look (w_mem w) r ;; Done (w, kept, [SInput i])
      end
  end.

Fixpoint session (w : world) (kept : list vresult) (ops : list op)
  : outcome (world * list vresult * list seen) :=
  match ops with
  | [] => Done (w, kept, [])
  | o :: r =>
      a <- step w kept o ;;
      let '(w, kept, s1) := a in
      b <- session w kept r ;;
      let '(w, kept, s2) := b in
      Done (w, kept, s1 ++ s2)
  end.
End Execute.
