(** Objects that contain at most one object of another type: coil::Optional,
    coil::Expected (include/coil/detail/Optional.h, Expected.h), and the owner of
    one, coil::UniquePtr (UniquePtr.h).

    A union is a slot that is raw or holds a live object.  Constructing over a
    live object, reading, assigning or destroying a dead one and letting the
    storage of a live one go are faults.  Copying an object may throw; moving
    does not. *)
From Coq Require Import Bool PeanoNat List.
From Verif Require Import Base.
Import ListNotations.

Definition vars (X : Type) := nat -> option X.

Definition var_put {X : Type} (f : vars X) (i : nat) (o : option X) : vars X :=
  fun j => if j =? i then o else f j.

Definition var_get {X : Type} (f : vars X) (i : nat) : outcome X :=
  match f i with Some x => Done x | None => Fault UseAfterFree end.

Definition var_free {X : Type} (f : vars X) (i : nat) : outcome unit :=
  match f i with Some _ => Fault BadLifetime | None => Done tt end.

(** ** Optional *)
Section Optional.

(** The type T: its values, what a move leaves behind, what moving an object
    into itself makes of it, the values whose copies throw, and what a target
    holds whose copy assignment has thrown. *)
Context {V : Type}.
Variable moved : V -> V.
Variable self_moved : V -> V.
Variable throws : V -> bool.
Variable torn : V -> V -> V.

(** Optional.h:48-58: m_hasValue and the union. *)
Record optional := Opt { m_hasValue : bool; m_value : option V }.

(** Optional(), Optional.h:67-70. *)
Definition opt_none : optional := Opt false None.

(** new (&m_value) T(...), Optional.h:206, 213: the object must not be there yet. *)
Definition place (o : optional) (v : V) : outcome optional :=
  match m_value o with
  | Some _ => Fault BadLifetime
  | None => Done (Opt (m_hasValue o) (Some v))
  end.

(** Reading m_value, Optional.h:91-168, of which there must be one. *)
Definition opt_read (o : optional) : outcome V :=
  match m_value o with Some v => Done v | None => Fault BadLifetime end.

(** Assigning to m_value, Optional.h:111 and 124. *)
Definition opt_write (o : optional) (v : V) : outcome optional :=
  match m_value o with
  | Some _ => Done (Opt (m_hasValue o) (Some v))
  | None => Fault BadLifetime
  end.

(** construct, Optional.h:203-215.  The copy of [v] may throw, which leaves the
    object as it was; [true] tells that an exception is on its way. *)
Definition opt_construct (copy : bool) (o : optional) (v : V) : outcome (optional * bool) :=
  if copy && throws v then Done (o, true)
  else o1 <- place o v ;; Done (Opt true (m_value o1), false).

(** destroy, Optional.h:217-225. *)
Definition opt_destroy (o : optional) : outcome optional :=
  o1 <- (if m_hasValue o then _ <- opt_read o ;; Done (Opt (m_hasValue o) None) else Done o) ;;
  match m_value o1 with
  | Some _ => Fault BadLifetime
  | None => Done (Opt false None)
  end.

(** ~Optional, Optional.h:101-105: the storage goes, and nothing may live in it. *)
Definition opt_end (o : optional) : outcome unit :=
  o1 <- opt_destroy o ;;
  match m_value o1 with Some _ => Fault BadLifetime | None => Done tt end.

(** Optional(T const&) and Optional(T&&), Optional.h:75-85.  They delegate to
    Optional(), so that ~Optional runs if they throw. *)
Definition opt_of (copy : bool) (v : V) : outcome (option optional) :=
  r <- opt_construct copy opt_none v ;;
  if snd r then _ <- opt_end (fst r) ;; Done None else Done (Some (fst r)).

(** Optional(Optional const&), Optional.h:87-92. *)
Definition opt_copy (rhs : optional) : outcome (option optional) :=
  if m_hasValue rhs then v <- opt_read rhs ;; opt_of true v
  else Done (Some opt_none).

(** Optional(Optional&&), Optional.h:94-99: the new object and [rhs] afterwards. *)
Definition opt_move (rhs : optional) : outcome (option optional * optional) :=
  if m_hasValue rhs then
    v <- opt_read rhs ;;
    rhs' <- opt_write rhs (moved v) ;;
    new <- opt_of false v ;;
    Done (new, rhs')
  else Done (Some opt_none, rhs).

(** operator=(Optional const&), Optional.h:107-118. *)
Definition opt_assign (this rhs : optional) : outcome (optional * bool) :=
  if m_hasValue this && m_hasValue rhs then
    v <- opt_read rhs ;;
    if throws v then
      old <- opt_read this ;; this' <- opt_write this (torn old v) ;; Done (this', true)
    else this' <- opt_write this v ;; Done (this', false)
  else if m_hasValue this && negb (m_hasValue rhs) then
    this' <- opt_destroy this ;; Done (this', false)
  else if negb (m_hasValue this) && m_hasValue rhs then
    v <- opt_read rhs ;; opt_construct true this v
  else Done (this, false).

(** operator=(Optional&&), Optional.h:120-131, for different objects. *)
Definition opt_assign_move (this rhs : optional) : outcome (optional * optional) :=
  if m_hasValue this && m_hasValue rhs then
    v <- opt_read rhs ;;
    rhs' <- opt_write rhs (moved v) ;;
    this' <- opt_write this v ;; Done (this', rhs')
  else if m_hasValue this && negb (m_hasValue rhs) then
    this' <- opt_destroy this ;; Done (this', rhs)
  else if negb (m_hasValue this) && m_hasValue rhs then
    v <- opt_read rhs ;;
    rhs' <- opt_write rhs (moved v) ;;
    r <- opt_construct false this v ;; Done (fst r, rhs')
  else Done (this, rhs).

(** The same, Optional.h:107-131, when both are one object: only the first case can apply. *)
Definition opt_assign_self (this : optional) : outcome optional :=
  if m_hasValue this then v <- opt_read this ;; opt_write this (self_moved v)
  else Done this.

(** operator*, Optional.h:145-157. *)
Definition opt_deref (o : optional) : outcome V :=
  _ <- assert_ (m_hasValue o) ;; opt_read o.

(** operator==(Optional const&), Optional.h:171-181. *)
Definition opt_eq (V_eqb : V -> V -> bool) (a b : optional) : outcome bool :=
  if negb (eqb (m_hasValue a) (m_hasValue b)) then Done false
  else if m_hasValue a && m_hasValue b then
    x <- opt_read a ;; y <- opt_read b ;; Done (V_eqb x y)
  else Done true.

(** operator==(T2 const&), Optional.h:189-194. *)
Definition opt_eq_value (V_eqb : V -> V -> bool) (a : optional) (v : V) : outcome bool :=
  if m_hasValue a then x <- opt_read a ;; Done (V_eqb x v) else Done false.

(** Programs with any number of Optional objects. *)
Inductive oop : Type :=
| ONone (i : nat)                      (* Optional x; *)
| OOf (i : nat) (copy : bool) (v : V)  (* Optional x{v} or Optional x{move(v)} *)
| OCopy (i j : nat)                    (* Optional x{y} *)
| OMove (i j : nat)                    (* Optional x{move(y)} *)
| OAssign (i j : nat)                  (* x = y *)
| OAssignMove (i j : nat)              (* x = move(y) *)
| OWrite (i : nat) (v : V)             (* the object behind *x becomes v *)
| ODestroy (i : nat).

(** One operation: the objects afterwards, and whether it threw. *)
Definition ostep (w : vars optional) (o : oop) : outcome (vars optional * bool) :=
  match o with
  | ONone i => _ <- var_free w i ;; Done (var_put w i (Some opt_none), false)
  | OOf i copy v => _ <- var_free w i ;; r <- opt_of copy v ;;
      Done (var_put w i r, match r with None => true | Some _ => false end)
  | OCopy i j => _ <- var_free w i ;; y <- var_get w j ;; r <- opt_copy y ;;
      Done (var_put w i r, match r with None => true | Some _ => false end)
  | OMove i j => _ <- var_free w i ;; y <- var_get w j ;; r <- opt_move y ;;
      Done (var_put (var_put w j (Some (snd r))) i (fst r), false)
  | OAssign i j => x <- var_get w i ;; y <- var_get w j ;; r <- opt_assign x y ;;
      Done (var_put w i (Some (fst r)), snd r)
  | OAssignMove i j =>
      x <- var_get w i ;; y <- var_get w j ;;
      if i =? j then x' <- opt_assign_self x ;; Done (var_put w i (Some x'), false)
      else r <- opt_assign_move x y ;;
           Done (var_put (var_put w j (Some (snd r))) i (Some (fst r)), false)
  | OWrite i v => x <- var_get w i ;; _ <- opt_deref x ;; x' <- opt_write x v ;;
      Done (var_put w i (Some x'), false)
  | ODestroy i => x <- var_get w i ;; _ <- opt_end x ;; Done (var_put w i None, false)
  end.

(** Programs go on after an exception. *)
Fixpoint oruns (w : vars optional) (os : list oop) : outcome (vars optional) :=
  match os with [] => Done w | o :: r => wb <- ostep w o ;; oruns (fst wb) r end.

End Optional.

Arguments optional : clear implicits.
Arguments oop : clear implicits.

(** ** Expected *)
Section Expected.

(** The types T and E. *)
Context {V E : Type}.
Variable movedV : V -> V.
Variable movedE : E -> E.
Variable self_movedV : V -> V.
Variable self_movedE : E -> E.
Variable throwsV : V -> bool.
Variable throwsE : E -> bool.
Variable tornV : V -> V -> V.
Variable tornE : E -> E -> E.

(** The union of Expected.h:63-67.  An Unexpected<E> is its m_value
    (Unexpected.h:33). *)
Inductive slot : Type := Raw | Val (v : V) | Err (e : E).

Record expd := Expd { m_union : slot; x_hasValue : bool }.

(** Reading m_expected and m_unexpected, Expected.h:158-215. *)
Definition read_value (x : expd) : outcome V :=
  match m_union x with Val v => Done v | _ => Fault BadLifetime end.
Definition read_error (x : expd) : outcome E :=
  match m_union x with Err e => Done e | _ => Fault BadLifetime end.

(** Assigning to them, Expected.h:106-131. *)
Definition write_value (x : expd) (v : V) : outcome expd :=
  _ <- read_value x ;; Done (Expd (Val v) (x_hasValue x)).
Definition write_error (x : expd) (e : E) : outcome expd :=
  _ <- read_error x ;; Done (Expd (Err e) (x_hasValue x)).

(** new (&m_expected) T(...), new (&m_unexpected) Unexpected<E>(...),
    Expected.h:260, 262, 270, 272. *)
Definition place_in (x : expd) (s : slot) : outcome expd :=
  match m_union x with Raw => Done (Expd s (x_hasValue x)) | _ => Fault BadLifetime end.

(** constructFrom(Expected const&), Expected.h:252-260.  m_hasValue is set
    before the copy that may throw. *)
Definition construct_copy (this rhs : expd) : outcome (expd * bool) :=
  let this := Expd (m_union this) (x_hasValue rhs) in
  if x_hasValue rhs then
    v <- read_value rhs ;;
    if throwsV v then Done (this, true)
    else this' <- place_in this (Val v) ;; Done (this', false)
  else
    e <- read_error rhs ;;
    if throwsE e then Done (this, true)
    else this' <- place_in this (Err e) ;; Done (this', false).

(** constructFrom(Expected&&), Expected.h:262-270. *)
Definition construct_move (this rhs : expd) : outcome (expd * expd) :=
  let this := Expd (m_union this) (x_hasValue rhs) in
  if x_hasValue rhs then
    v <- read_value rhs ;;
    rhs' <- write_value rhs (movedV v) ;;
    this' <- place_in this (Val v) ;; Done (this', rhs')
  else
    e <- read_error rhs ;;
    rhs' <- write_error rhs (movedE e) ;;
    this' <- place_in this (Err e) ;; Done (this', rhs').

(** destruct, Expected.h:272-279. *)
Definition x_destruct (x : expd) : outcome expd :=
  if x_hasValue x then _ <- read_value x ;; Done (Expd Raw (x_hasValue x))
  else _ <- read_error x ;; Done (Expd Raw (x_hasValue x)).

(** ~Expected, Expected.h:95-99. *)
Definition x_end (x : expd) : outcome unit :=
  x' <- x_destruct x ;; match m_union x' with Raw => Done tt | _ => Fault BadLifetime end.

(** Expected(T) and Expected(Unexpected<U>), Expected.h:72-81: the by-value
    parameter is moved. *)
Definition x_of (v : V) : expd := Expd (Val v) true.
Definition x_err (e : E) : expd := Expd (Err e) false.

(** An Expected whose constructor body is about to run: m_hasValue has its
    default member initialiser, Expected.h:66. *)
Definition x_new : expd := Expd Raw true.

(** Expected(Expected const&), Expected.h:83-87: if it throws there is no
    object, and ~Expected does not run. *)
Definition x_copy (rhs : expd) : outcome (option expd) :=
  r <- construct_copy x_new rhs ;;
  if snd r then match m_union (fst r) with Raw => Done None | _ => Fault BadLifetime end
  else Done (Some (fst r)).

(** Expected(Expected&&), Expected.h:89-93. *)
Definition x_move (rhs : expd) : outcome (expd * expd) := construct_move x_new rhs.

(** operator=(Expected const&), Expected.h:101-119. *)
Definition x_assign (this rhs : expd) : outcome (expd * bool) :=
  if x_hasValue this && x_hasValue rhs then
    v <- read_value rhs ;;
    if throwsV v then
      old <- read_value this ;; this' <- write_value this (tornV old v) ;; Done (this', true)
    else this' <- write_value this v ;; Done (this', false)
  else if negb (x_hasValue this) && negb (x_hasValue rhs) then
    e <- read_error rhs ;;
    if throwsE e then
      old <- read_error this ;; this' <- write_error this (tornE old e) ;; Done (this', true)
    else this' <- write_error this e ;; Done (this', false)
  else this' <- x_destruct this ;; construct_copy this' rhs.

(** operator=(Expected&&), Expected.h:121-140, for different objects. *)
Definition x_assign_move (this rhs : expd) : outcome (expd * expd) :=
  if x_hasValue this && x_hasValue rhs then
    v <- read_value rhs ;; rhs' <- write_value rhs (movedV v) ;;
    this' <- write_value this v ;; Done (this', rhs')
  else if negb (x_hasValue this) && negb (x_hasValue rhs) then
    e <- read_error rhs ;; rhs' <- write_error rhs (movedE e) ;;
    this' <- write_error this e ;; Done (this', rhs')
  else this' <- x_destruct this ;; construct_move this' rhs.

(** The same for one object. *)
Definition x_assign_self (this : expd) : outcome expd :=
  if x_hasValue this then v <- read_value this ;; write_value this (self_movedV v)
  else e <- read_error this ;; write_error this (self_movedE e).

(** value() and error(), Expected.h:154-173, 197-216. *)
Definition x_value (x : expd) : outcome V := _ <- assert_ (x_hasValue x) ;; read_value x.
Definition x_error (x : expd) : outcome E := _ <- assert_ (negb (x_hasValue x)) ;; read_error x.

(** operator==(Expected const&), Expected.h:175-188. *)
Definition x_eq (V_eqb : V -> V -> bool) (E_eqb : E -> E -> bool) (a b : expd) : outcome bool :=
  if x_hasValue a && x_hasValue b then x <- x_value a ;; y <- x_value b ;; Done (V_eqb x y)
  else if negb (x_hasValue a) && negb (x_hasValue b) then
    x <- x_error a ;; y <- x_error b ;; Done (E_eqb x y)
  else Done false.

Inductive xop : Type :=
| XOf (i : nat) (v : V)          (* Expected x{v} *)
| XErr (i : nat) (e : E)         (* Expected x{makeUnexpected(e)} *)
| XCopy (i j : nat)              (* Expected x{y} *)
| XMove (i j : nat)              (* Expected x{move(y)} *)
| XAssign (i j : nat)            (* x = y *)
| XAssignMove (i j : nat)        (* x = move(y) *)
| XDestroy (i : nat).

Definition xstep (w : vars expd) (o : xop) : outcome (vars expd * bool) :=
  match o with
  | XOf i v => _ <- var_free w i ;; Done (var_put w i (Some (x_of v)), false)
  | XErr i e => _ <- var_free w i ;; Done (var_put w i (Some (x_err e)), false)
  | XCopy i j => _ <- var_free w i ;; y <- var_get w j ;; r <- x_copy y ;;
      Done (var_put w i r, match r with None => true | Some _ => false end)
  | XMove i j => _ <- var_free w i ;; y <- var_get w j ;; r <- x_move y ;;
      Done (var_put (var_put w j (Some (snd r))) i (Some (fst r)), false)
  | XAssign i j => x <- var_get w i ;; y <- var_get w j ;; r <- x_assign x y ;;
      Done (var_put w i (Some (fst r)), snd r)
  | XAssignMove i j =>
      x <- var_get w i ;; y <- var_get w j ;;
      if i =? j then x' <- x_assign_self x ;; Done (var_put w i (Some x'), false)
      else r <- x_assign_move x y ;;
           Done (var_put (var_put w j (Some (snd r))) i (Some (fst r)), false)
  | XDestroy i => x <- var_get w i ;; _ <- x_end x ;; Done (var_put w i None, false)
  end.

Fixpoint xruns (w : vars expd) (os : list xop) : outcome (vars expd) :=
  match os with [] => Done w | o :: r => wb <- xstep w o ;; xruns (fst wb) r end.

End Expected.

Arguments slot : clear implicits.
Arguments expd : clear implicits.
Arguments xop : clear implicits.

(** ** UniquePtr *)
Section UniquePtr.

Context {V : Type}.

(** Objects on the free store, by address; deleted ones are [None]. *)
Definition store := list (option V).

Definition obj_read (s : store) (k : nat) : outcome V :=
  match nth_error s k with Some (Some v) => Done v | _ => Fault UseAfterFree end.

Definition obj_delete (s : store) (k : nat) : outcome store :=
  match nth_error s k with
  | Some (Some _) => Done (firstn k s ++ None :: skipn (S k) s)
  | _ => Fault BadLifetime
  end.

(** A UniquePtr is its m_ptr, UniquePtr.h:74. *)
Definition uptr := option nat.

Record uworld := UWorld { u_store : store; u_ptr : vars uptr }.

Inductive uop : Type :=
| UMake (i : nat) (v : V)     (* UniquePtr x = makeUnique(v) *)
| UNull (i : nat)             (* UniquePtr x; *)
| URaw (i j : nat)            (* UniquePtr x{y.get()} *)
| UMove (i j : nat)           (* UniquePtr x{move(y)} *)
| UConvert (i j : nat)        (* UniquePtr<Base> x = move(y) *)
| UAssign (i j : nat)         (* x = move(y) *)
| URead (i : nat)             (* *x *)
| UDestroy (i : nat).

(** UniquePtr.h:12-29, 65-71, 77-81. *)
Definition ustep (w : uworld) (o : uop) : outcome uworld :=
  match o with
  | UMake i v => _ <- var_free (u_ptr w) i ;;
      Done (UWorld (u_store w ++ [Some v]) (var_put (u_ptr w) i (Some (Some (length (u_store w))))))
  | UNull i => _ <- var_free (u_ptr w) i ;; Done (UWorld (u_store w) (var_put (u_ptr w) i (Some None)))
  | URaw i j => _ <- var_free (u_ptr w) i ;; y <- var_get (u_ptr w) j ;;
      Done (UWorld (u_store w) (var_put (u_ptr w) i (Some y)))
  | UMove i j => _ <- var_free (u_ptr w) i ;; y <- var_get (u_ptr w) j ;;
      (* m_ptr = nullptr, then exchange *)
      Done (UWorld (u_store w) (var_put (var_put (u_ptr w) j (Some None)) i (Some y)))
  | UConvert i j => _ <- var_free (u_ptr w) i ;; y <- var_get (u_ptr w) j ;;
      Done (UWorld (u_store w) (var_put (var_put (u_ptr w) j (Some None)) i (Some y)))
  | UAssign i j => x <- var_get (u_ptr w) i ;; y <- var_get (u_ptr w) j ;;
      (* exchange(m_ptr, rhs.m_ptr) *)
      Done (UWorld (u_store w) (var_put (var_put (u_ptr w) i (Some y)) j (Some x)))
  | URead i => x <- var_get (u_ptr w) i ;;
      match x with
      | None => Fault AssertFailed
      | Some k => _ <- obj_read (u_store w) k ;; Done w
      end
  | UDestroy i => x <- var_get (u_ptr w) i ;;
      s <- match x with None => Done (u_store w) | Some k => obj_delete (u_store w) k end ;;
      Done (UWorld s (var_put (u_ptr w) i None))
  end.

Fixpoint uruns (w : uworld) (os : list uop) : outcome uworld :=
  match os with [] => Done w | o :: r => w' <- ustep w o ;; uruns w' r end.

Definition ustart : uworld := UWorld [] (fun _ => None).

End UniquePtr.

Arguments uop : clear implicits.
Arguments uworld : clear implicits.
