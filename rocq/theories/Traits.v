(** What the compiler computes and checks when a functor is bound: the type traits
    (include/coil/detail/TypeTraits.h), the traits of functions (FuncTraits.h,
    FunctionWrapper.h:17-35), the template instantiations behind add, operator=,
    overloaded, bind, variable, property and bindProperty.

    A C++ type is a value here, a class template a function on types.  Template
    argument deduction and the choice of the most specialized partial
    specialization are those of the language; an ambiguous choice is [None].
    [None] always means "does not compile". *)
From Coq Require Import Bool PeanoNat Lia List.
Import ListNotations.

(** * Types *)

(** The qualifiers after the parameters of a function type. *)
Inductive refq := RefNone | RefL | RefR.
Record fquals := FQ { q_const : bool; q_volatile : bool; q_ref : refq; q_noexcept : bool }.

(** A type: const, volatile and the rest.  Arithmetic types, enumerations and
    classes are numbers.  [SFun r args dots q]: a function type, with a trailing
    ellipsis if [dots]. *)
Inductive ty := Ty (c v : bool) (s : shape)
with shape :=
| SVoid
| SObj (n : nat)
| SPtr (t : ty)
| SArr (s : shape) (len : nat)      (* cv of an array is that of its elements *)
| SFun (r : ty) (args : list ty) (dots : bool) (q : fquals)
| SMem (cls : nat) (t : ty)         (* T U::* *)
| SLRef (t : ty)
| SRRef (t : ty).

Definition bare (s : shape) : ty := Ty false false s.
Definition add_const (t : ty) : ty :=
  match t with
  | Ty _ _ (SFun _ _ _ _ | SLRef _ | SRRef _) => t    (* const is ignored *)
  | Ty _ v s => Ty true v s
  end.
Definition lref (t : ty) : ty := bare (SLRef t).
Definition rref (t : ty) : ty := bare (SRRef t).
Definition ptr (t : ty) : ty := bare (SPtr t).

Definition refq_eqb (a b : refq) : bool :=
  match a, b with RefNone, RefNone | RefL, RefL | RefR, RefR => true | _, _ => false end.
Definition fquals_eqb (a b : fquals) : bool :=
  Bool.eqb (q_const a) (q_const b) && Bool.eqb (q_volatile a) (q_volatile b) &&
  refq_eqb (q_ref a) (q_ref b) && Bool.eqb (q_noexcept a) (q_noexcept b).

(** IsSameV, TypeTraits.h:89-97. *)
Fixpoint IsSameV (a b : ty) {struct a} : bool :=
  let 'Ty c v s := a in let 'Ty c' v' s' := b in
  Bool.eqb c c' && Bool.eqb v v' && same_shape s s'
with same_shape (a b : shape) {struct a} : bool :=
  match a, b with
  | SVoid, SVoid => true
  | SObj n, SObj m => n =? m
  | SPtr t, SPtr u => IsSameV t u
  | SArr s n, SArr s' m => same_shape s s' && (n =? m)
  | SFun r l d q, SFun r' l' d' q' =>
      IsSameV r r' &&
      (fix same_list (l l' : list ty) {struct l} : bool :=
         match l, l' with
         | [], [] => true
         | t :: l, t' :: l' => IsSameV t t' && same_list l l'
         | _, _ => false
         end) l l' &&
      Bool.eqb d d' && fquals_eqb q q'
  | SMem n t, SMem m u => (n =? m) && IsSameV t u
  | SLRef t, SLRef u => IsSameV t u
  | SRRef t, SRRef u => IsSameV t u
  | _, _ => false
  end.

(** * Partial specializations with one template parameter T *)

(** [PAny c v]: T, T const, T volatile, T const volatile.  [PPtr c v]: T*, T* const,
    and so on.  [PLRef]: T&.  [PRRef]: T&&.  [PMem]: T U::*. *)
Inductive pat := PAny (c v : bool) | PPtr (c v : bool) | PLRef | PRRef | PMem.

(** Deduction of T.  In [PAny] the qualifiers not in the pattern become part of T;
    elsewhere the qualifiers must agree. *)
Definition deduce (p : pat) (t : ty) : option ty :=
  let 'Ty c v s := t in
  match p, s with
  | PAny pc pv, _ =>
      if (negb pc || c) && (negb pv || v)
      then Some (Ty (c && negb pc) (v && negb pv) s) else None
  | PPtr pc pv, SPtr u => if Bool.eqb pc c && Bool.eqb pv v then Some u else None
  | PLRef, SLRef u => if c || v then None else Some u
  | PRRef, SRRef u => if c || v then None else Some u
  | PMem, SMem _ u => if c || v then None else Some u
  | _, _ => None
  end.

(** At least as specialized: whatever matches the first matches the second. *)
Definition more_special (p q : pat) : bool :=
  match p, q with
  | PAny c v, PAny c' v' => implb c' c && implb v' v
  | PPtr c v, PPtr c' v' => Bool.eqb c c' && Bool.eqb v v'
  | PPtr c v, PAny c' v' => implb c' c && implb v' v
  | PLRef, PLRef | PRRef, PRRef | PMem, PMem => true
  | (PLRef | PRRef | PMem), PAny c v => negb c && negb v
  | _, _ => false
  end.

Definition matches (t : ty) (p : pat) : bool :=
  match deduce p t with Some _ => true | None => false end.

(** The member Type of a template all of whose specializations define it as T. *)
Definition instance (specs : list pat) (t : ty) : option ty :=
  let ms := filter (matches t) specs in
  match ms with
  | [] => Some t                                   (* the primary template *)
  | _ => match find (fun p => forallb (more_special p) ms) ms with
         | Some p => deduce p t
         | None => None                            (* ambiguous *)
         end
  end.

(** RemoveCv, TypeTraits.h:5-26. *)
Definition RemoveCvT : ty -> option ty :=
  instance [PAny true false; PAny false true; PAny true true].
(** RemoveReference, TypeTraits.h:28-44. *)
Definition RemoveReferenceT : ty -> option ty := instance [PLRef; PRRef].
(** RemovePointer, TypeTraits.h:46-72. *)
Definition RemovePointerT : ty -> option ty :=
  instance [PPtr false false; PPtr true false; PPtr false true; PPtr true true].

Definition obind {A B} (x : option A) (f : A -> option B) : option B :=
  match x with Some a => f a | None => None end.
Notation "x <-? e ; k" := (obind e (fun x => k)) (at level 60, right associativity, e at level 59).

(** DecayT, TypeTraits.h:74-75. *)
Definition DecayT (t : ty) : option ty := u <-? RemoveReferenceT t; RemoveCvT u.
(** IsVoidV, TypeTraits.h:99-100. *)
Definition IsVoidV (t : ty) : option bool :=
  u <-? RemoveCvT t; Some (IsSameV u (bare SVoid)).
(** IsConstV, TypeTraits.h:105-108. *)
Definition IsConstV (t : ty) : bool := matches t (PAny true false).
(** IsMemberPointerV, TypeTraits.h:110-113. *)
Definition IsMemberPointerV (t : ty) : bool := matches t PMem.
(** EnableIf, TypeTraits.h:77-87: without the condition there is no member Type. *)
Definition EnableIfT (b : bool) (t : ty) : option ty := if b then Some t else None.

(** coil::move and coil::forward, Utility.h:7-23: the type of the result.  [T&&]
    collapses references. *)
Definition collapse_rr (t : ty) : ty :=
  match t with
  | Ty _ _ (SLRef _) => t
  | Ty _ _ (SRRef _) => t
  | _ => rref t
  end.
Definition move_type (T : ty) : option ty := u <-? RemoveReferenceT T; Some (collapse_rr u).
Definition forward_type (T : ty) : ty := collapse_rr T.

(** * Traits of functions *)

(** BaseFuncTraits, FuncTraits.h:12-21. *)
Record traits := Traits { t_return : ty; t_args : list ty; t_const : bool }.
Definition BaseFuncTraits (isConst : bool) (R : ty) (Args : list ty) : option traits :=
  u <-? RemoveReferenceT R; r <-? RemoveCvT u; Some (Traits r Args isConst).

(** FuncTraits.h:47-71, one row for each use of COIL_MEMBER_FUNCTION_SPECIALIZATION. *)
Definition member_rows : list (fquals * bool) :=
  [(FQ false false RefNone false, false);
   (FQ false true RefNone false, false);
   (FQ false false RefL false, false);
   (FQ false true RefL false, false);
   (FQ false false RefR false, false);
   (FQ false true RefR false, false);
   (FQ false false RefNone true, false);
   (FQ false true RefNone true, false);
   (FQ false false RefL true, false);
   (FQ false true RefL true, false);
   (FQ false false RefR true, false);
   (FQ false true RefR true, false);
   (FQ true false RefNone false, true);
   (FQ true true RefNone false, true);
   (FQ true false RefL false, true);
   (FQ true true RefL false, true);
   (FQ true false RefR false, true);
   (FQ true true RefR false, true);
   (FQ true false RefNone true, true);
   (FQ true true RefNone true, true);
   (FQ true false RefL true, true);
   (FQ true true RefL true, true);
   (FQ true false RefR true, true);
   (FQ true true RefR true, true)].
(** FuncTraits.h:30-38. *)
Definition free_rows : list (fquals * bool) :=
  [(FQ false false RefNone false, false); (FQ false false RefNone true, false)].

(** The specializations that match a function type with qualifiers [q]. *)
Definition matching_rows (rows : list (fquals * bool)) (q : fquals) : list bool :=
  map snd (filter (fun r => fquals_eqb (fst r) q) rows).

(** FuncTraitsImpl, FuncTraits.h:23-71: [Some None] for the primary template, whose
    isFunc is false.  No specialization has a trailing ellipsis. *)
Definition FuncTraitsImpl (F : ty) : option (option traits) :=
  let use rows R Args q :=
    match matching_rows rows q with
    | [] => Some None
    | [isConst] => t <-? BaseFuncTraits isConst R Args; Some (Some t)
    | _ => None
    end in
  match F with
  | Ty false false (SPtr (Ty false false (SFun R Args false q))) => use free_rows R Args q
  | Ty false false (SMem _ (Ty false false (SFun R Args false q))) => use member_rows R Args q
  | _ => Some None
  end.

(** * What the program declares *)

(** A call operator of a class: a template or not, static or not, its type. *)
Record callop := Op {
  o_template : bool; o_static : bool;
  o_result : ty; o_params : list ty; o_dots : bool; o_quals : fquals }.

(** How TypeSerializer<T>::fromString delivers: an Expected<T, String>, or an
    Expected<ReferenceWrapper<T const>, String> (Value.h:48). *)
Inductive delivery := ByValue | ByWrapper.

(** The classes and the specializations of TypeName and TypeSerializer of a program. *)
Record world := World {
  callops : nat -> list callop;                 (* accessible ones *)
  derives : nat -> nat -> bool;                 (* same class or derived from *)
  is_class : nat -> bool;
  type_name : ty -> option nat;                 (* TypeName<T>::name() *)
  from_string : ty -> option delivery;
  to_string : ty -> bool;                       (* other than TypeSerializer<T*> *)
  converts : ty -> ty -> bool                   (* a parameter takes a T const lvalue *)
}.

(** Numbers of the types the library names. *)
Definition o_context := 0.
Definition o_char := 1.
Definition o_value := 2.
Definition Context : ty := bare (SObj o_context).

Section Instantiation.
Variable w : world.

(** decltype(&Func::operator()), FuncTraits.h:80-81: there must be one call operator
    and it must not be a template. *)
Definition address_of_call (F : ty) : option ty :=
  match F with
  | Ty _ _ (SObj n) =>
      match callops w n with
      | [o] => if o_template o then None
               else let f := bare (SFun (o_result o) (o_params o) (o_dots o) (o_quals o)) in
                    Some (if o_static o then ptr f else bare (SMem n f))
      | _ => None
      end
  | _ => None
  end.

(** FuncTraits, FuncTraits.h:75-83. *)
Definition FuncTraits (F : ty) : option (option traits) :=
  match address_of_call F with
  | Some t => FuncTraitsImpl t
  | None => FuncTraitsImpl F
  end.

Fixpoint omap {A B} (f : A -> option B) (l : list A) : option (list B) :=
  match l with
  | [] => Some []
  | x :: l => y <-? f x; ys <-? omap f l; Some (y :: ys)
  end.

(** ArgsTraitsImpl<DecayT<Args>...>, FunctionWrapper.h:17-35: is a Context passed,
    and the types converted from the input. *)
Definition ArgsTraits (Args : list ty) : option (bool * list ty) :=
  ds <-? omap DecayT Args;
  Some (match ds with
        | d :: tail => if IsSameV d Context then (true, tail) else (false, ds)
        | [] => (false, [])
        end).

(** TypeSerializer<R>::toString of the type [bare s], TypeSerializer.h:36-113 and the
    specializations of the program; TypeSerializer<T*> goes on with DecayT<T>, which
    removes the qualifiers of T.  A volatile object of class type cannot be copied,
    so it does not reach a parameter T const&. *)
Definition takes (v : bool) (s : shape) : bool :=
  negb v || match s with SObj n => negb (is_class w n) | SPtr _ | SMem _ _ => true | _ => false end.
Fixpoint prints (s : shape) : bool :=
  to_string w (bare s) ||
  match s with
  | SPtr (Ty c v s') =>
      (c && negb v && same_shape s' (SObj o_char)) || (takes v s' && prints s')
  | _ => false
  end.

(** A parameter of a function type, initialized with an xvalue of type [d] or a
    prvalue of it (a Context), or from a wrapper of a constant [d]; the types of
    parameters have no qualifiers of their own. *)
Definition param_ok (how : delivery) (p : ty) : bool :=
  match p, how with
  | Ty _ _ (SLRef (Ty c v _)), _ => c && negb v
  | Ty _ _ (SRRef _), ByValue => true
  | Ty _ _ (SRRef _), ByWrapper => false
  | _, _ => true
  end.

(** One user argument: a name, TypeSerializer<D>::fromString and an initialization
    of the parameter (Types.h:19, FunctorCaller.h:34,42, FunctionWrapper.h:75-85,127). *)
Definition user_arg (p d : ty) : option nat :=
  n <-? type_name w d; how <-? from_string w d;
  if param_ok how p then Some n else None.

Fixpoint user_args (ps ds : list ty) : option (list nat) :=
  match ps, ds with
  | [], [] => Some []
  | p :: ps, d :: ds => n <-? user_arg p d; ns <-? user_args ps ds; Some (n :: ns)
  | _, _ => None
  end.

(** The call expression in typedCall, FunctionWrapper.h:66-87: [func(...)] if C is
    void, otherwise [(obj->*func)(...)]. *)
Definition call_ok (F : ty) (C : ty) : option bool :=
  vd <-? IsVoidV C;
  Some (if vd
        then match F with
             | Ty _ _ (SPtr (Ty _ _ (SFun _ _ _ _))) => true
             | Ty _ _ (SObj n) =>
                 match callops w n with
                 | [o] => o_static o || negb (refq_eqb (q_ref (o_quals o)) RefR)
                 | _ => false
                 end
             | _ => false
             end
        else match F, C with
             | Ty _ _ (SMem m (Ty _ _ (SFun _ _ _ q))), Ty c v (SObj n) =>
                 derives w n m && is_class w n &&
                 implb c (q_const q) && implb v (q_volatile q) &&
                 negb (refq_eqb (q_ref q) RefR)
             | _, _ => false
             end).

(** What AnyFunctor remembers (AnyFunctor.h:76-78, 81-85). *)
Record metadata := Meta { m_context : bool; m_params : list nat; m_return : nat }.

(** AnyFunctor{FunctionWrapper{func, obj}} with [F] the type of func and [C] that of
    *obj: FunctionWrapper.h:37-45 (the constructor), 66-87 (typedCall), 125-128
    (invoke), AnyFunctor.h:81-85, 41-50, Types.h:15-26, FunctorCaller.h:25-43. *)
Definition make_functor (t : traits) (F C : ty) : option metadata :=
  a <-? ArgsTraits (t_args t);
  let '(ctx, ds) := a in
  let ps := if ctx then tl (t_args t) else t_args t in
  ns <-? user_args ps ds;
  if (if ctx then match t_args t with p :: _ => param_ok ByValue p | [] => false end else true)
  then
    (* the name of the result, FunctionWrapper.h:38 *)
    p <-? RemovePointerT (t_return t); d <-? DecayT p; rn <-? type_name w d;
    (* the call *)
    c <-? call_ok F C;
    if c then
      (* the text of the result, FunctionWrapper.h:72-86 *)
      vd <-? IsVoidV (t_return t);
      let 'Ty _ _ s := t_return t in
      if vd || prints s then Some (Meta ctx ns rn) else None
    else None
  else None.

(** The type the call expression has, before BaseFuncTraits strips it: a volatile
    result of class type does not reach toString. *)
Definition result_ok (R : ty) : bool :=
  match R with
  | Ty _ _ (SLRef (Ty _ v s)) | Ty _ _ (SRRef (Ty _ v s)) => takes v s
  | Ty _ v s => takes v s || same_shape s SVoid
  end.
Definition declared_result (F : ty) : option ty :=
  match (match address_of_call F with Some t => t | None => F end) with
  | Ty _ _ (SPtr (Ty _ _ (SFun R _ _ _))) | Ty _ _ (SMem _ (Ty _ _ (SFun R _ _ _))) => Some R
  | _ => None
  end.

(** What becomes of a binding: it compiles, a static_assert stops it, or some
    other rule of the language does. *)
Inductive verdict := Accepted (m : metadata) | Asserted | Rejected.

Definition conclude (R : option ty) (m : option metadata) : verdict :=
  match R, m with
  | Some R, Some m => if result_ok R then Accepted m else Rejected
  | _, _ => Rejected
  end.

(** Bindings::add and BindingProxy::operator= for a functor, Bindings.h:36-42,
    69-75; createAnyFunctor, Overloaded.h:11-16. *)
Definition add (F : ty) : verdict :=
  match FuncTraits F with
  | Some None => Asserted
  | Some (Some t) => conclude (declared_result F) (make_functor t F (bare SVoid))
  | None => Rejected
  end.

(** bind(func, obj), Bind.h:9-17, with [C] the type of *obj. *)
Definition bind (F C : ty) : verdict :=
  match FuncTraits F with
  | Some (Some t) =>
      if negb (IsConstV C) || t_const t
      then conclude (declared_result F) (make_functor t F C)
      else Asserted
  | _ => Rejected                                  (* Traits has no isConst *)
  end.

(** * variable, property, bindProperty *)

(** A lambda with these parameters and result that is not mutable. *)
Definition lambda (ps : list ty) (R : ty) : callop :=
  Op false false R ps false (FQ true false RefNone false).

(** The type of a by-value parameter declared as [t]: an array becomes a pointer, a
    function a pointer to it, and qualifiers are dropped. *)
Definition adjust (t : ty) : ty :=
  match t with
  | Ty c v (SArr s _) => ptr (Ty c v s)
  | Ty _ _ (SFun _ _ _ _) => ptr t
  | Ty _ _ s => bare s
  end.

(** variable(T* ) and variable(T const* ), Variable.h:9-31, called with an argument of
    type [A]: the two lambdas.  The second overload is more specialized, so it takes
    every pointer to a constant.  The first assigns to the variable, which an array
    or a function does not allow; no reference to void can be formed. *)
Definition variable (A : ty) : option (callop * callop) :=
  match A with
  | Ty _ _ (SPtr T) =>
      match deduce (PAny true false) T with
      | Some U =>
          match U with
          | Ty _ _ SVoid => None
          | _ => Some (lambda [] (lref (add_const U)), lambda [Context; adjust U] (lref (add_const U)))
          end
      | None =>
          match T with
          | Ty _ _ (SVoid | SArr _ _ | SFun _ _ _ _) => None
          | _ => Some (lambda [] (lref (add_const T)), lambda [adjust T] (lref (add_const T)))
          end
      end
  | _ => None                                      (* nothing to deduce T from *)
  end.

(** The type of [f(args...)] where f is an lvalue of type [F] const: the captured
    copies in Property.h:21-26, 35-39 are members of a closure whose call operator
    is const.  Default arguments and arguments for an ellipsis are not modelled. *)
Definition const_call (F : ty) (nargs : nat) : option (ty * list ty) :=
  match F with
  | Ty _ _ (SPtr (Ty _ _ (SFun R ps _ _))) =>
      if length ps =? nargs then Some (R, ps) else None
  | Ty _ _ (SObj n) =>
      match callops w n with
      | [o] =>
          if (o_static o ||
              (q_const (o_quals o) && negb (refq_eqb (q_ref (o_quals o)) RefR))) &&
             negb (o_template o) && (length (o_params o) =? nargs)
          then Some (o_result o, o_params o) else None
      | _ => None                                  (* overload resolution not modelled *)
      end
  | _ => None
  end.

(** A reference or pointer to T const can be formed unless T is a reference; a
    parameter T const& not for void either. *)
Definition referable (t : ty) : bool :=
  match t with Ty _ _ (SVoid | SLRef _ | SRRef _) => false | _ => true end.

(** property(getter, setter), Property.h:18-30. *)
Definition property (G S : ty) : option (callop * callop) :=
  g <-? const_call G 0;
  T <-? DecayT (fst g);
  s <-? const_call S 1;
  match snd s with
  | [p] => if referable T && converts w p T
           then Some (lambda [] (fst g), lambda [lref (add_const T)] (fst g)) else None
  | _ => None
  end.

(** property(getter), Property.h:32-43. *)
Definition read_property (G : ty) : option (callop * callop) :=
  g <-? const_call G 0;
  Some (lambda [] (fst g), lambda [Context; bare (SObj o_value)] (fst g)).

(** simpleInvoke(func, object, ...), Property.h:9-16, with func an lvalue of type [F]
    const and object an lvalue of type C* const. *)
Definition simpleInvoke (F C : ty) (nargs : nat) : option (ty * list ty) :=
  d <-? DecayT (lref (add_const F));
  if IsMemberPointerV d
  then match d, C with
       | Ty _ _ (SMem m (Ty _ _ (SFun R ps _ q))), Ty c v (SObj n) =>
           if derives w n m && is_class w n && implb c (q_const q) && implb v (q_volatile q) &&
              negb (refq_eqb (q_ref q) RefR) && (length ps =? nargs)
           then Some (R, ps) else None
       | _, _ => None
       end
  else match const_call F (Datatypes.S nargs) with
       | Some (R, p :: ps) => if converts w p (ptr C) then Some (R, ps) else None
       | _ => None
       end.

(** bindProperty(getter, setter, object), Property.h:45-57. *)
Definition bindProperty (G S C : ty) : option (callop * callop) :=
  g <-? simpleInvoke G C 0;
  T <-? DecayT (fst g);
  s <-? simpleInvoke S C 1;
  match snd s with
  | [p] => if referable T && converts w p T
           then Some (lambda [] (fst g), lambda [lref (add_const T)] (fst g)) else None
  | _ => None
  end.

(** bindProperty(getter, object), Property.h:59-71. *)
Definition bindReadProperty (G C : ty) : option (callop * callop) :=
  g <-? simpleInvoke G C 0;
  T <-? DecayT (fst g);
  if referable T
  then Some (lambda [] (fst g), lambda [Context; adjust T] (fst g)) else None.

End Instantiation.
