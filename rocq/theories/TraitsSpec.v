(** What a user of the library may expect of the compile-time code: which functors
    can be bound and what is recorded about them.  Only the syntax of types and the
    declarations of a program are taken from Traits.v. *)
From Coq Require Import Bool PeanoNat Lia List.
From Verif Require Import Traits.
Import ListNotations.

(** * Types *)

Definition is_ref (t : ty) : Prop :=
  match t with Ty _ _ (SLRef _) | Ty _ _ (SRRef _) => True | _ => False end.

Definition is_void (t : ty) : Prop := match t with Ty _ _ SVoid => True | _ => False end.

(** C++ has no qualified references or functions and no references to references
    or to void, and pointers only to what is not a reference. *)
Inductive wf : ty -> Prop :=
| wf_void c v : wf (Ty c v SVoid)
| wf_obj c v n : wf (Ty c v (SObj n))
| wf_ptr c v t : wf t -> ~ is_ref t -> wf (Ty c v (SPtr t))
| wf_arr c v s n : wf (bare s) -> ~ is_ref (bare s) -> wf (Ty c v (SArr s n))
| wf_fun r args d q : wf (bare (SFun r args d q))
| wf_mem c v n t : wf t -> ~ is_ref t -> wf (Ty c v (SMem n t))
| wf_lref t : wf t -> ~ is_ref t -> ~ is_void t -> wf (bare (SLRef t))
| wf_rref t : wf t -> ~ is_ref t -> ~ is_void t -> wf (bare (SRRef t)).

(** [t] is [d] up to qualifiers. *)
Definition qualified (d t : ty) : Prop :=
  exists s c v, d = bare s /\ t = Ty c v s.

(** [d] is the type of the values that something of type [t] holds or refers to. *)
Definition underlies (d t : ty) : Prop :=
  ~ is_ref d /\
  exists u, qualified d u /\ (t = u \/ t = lref u \/ t = rref u).

(** std::decay of the standard library, [meta.trans.other]. *)
Definition std_decay (t d : ty) : Prop :=
  exists u, ~ is_ref u /\ (t = u \/ t = lref u \/ t = rref u) /\
  match u with
  | Ty c v (SArr s _) => d = ptr (Ty c v s)
  | Ty _ _ (SFun _ _ _ _) => d = ptr u
  | Ty _ _ s => d = bare s
  end.

(** * Functors *)

Section Spec.
Variable w : world.

(** [F] can be called as it is, with parameters [ps] and result [R]. *)
Inductive callable : ty -> list ty -> ty -> Prop :=
| call_function R ps ne :
    callable (ptr (bare (SFun R ps false (FQ false false RefNone ne)))) ps R
| call_object n o :
    callops w n = [o] -> o_template o = false -> o_static o = false -> o_dots o = false ->
    q_ref (o_quals o) <> RefR ->
    callable (bare (SObj n)) (o_params o) (o_result o)
| call_static n o :
    callops w n = [o] -> o_template o = false -> o_static o = true -> o_dots o = false ->
    callable (bare (SObj n)) (o_params o) (o_result o).

(** [F] points to a member function that can be called on an object of type [C]. *)
Inductive callable_on : ty -> ty -> list ty -> ty -> Prop :=
| call_member m n c v R ps q :
    is_class w n = true -> derives w n m = true ->
    (c = true -> q_const q = true) -> (v = true -> q_volatile q = true) ->
    q_ref q <> RefR ->
    callable_on (bare (SMem m (bare (SFun R ps false q)))) (Ty c v (SObj n)) ps R.

(** Parameters that take a converted argument of type [T]: T, T const& and T&&;
    not T&&, if the conversion only gives access to a value that exists. *)
Inductive passable : delivery -> ty -> ty -> Prop :=
| pass_value how s : ~ is_ref (bare s) -> passable how (bare s) (bare s)
| pass_const how s : passable how (bare s) (lref (Ty true false s))
| pass_move s c v : passable ByValue (bare s) (rref (Ty c v s)).

(** A parameter filled from the input; its type is called [n]. *)
Definition from_input (p : ty) (n : nat) : Prop :=
  exists T how, underlies T p /\ passable how T p /\
    type_name w T = Some n /\ from_string w T = Some how.

(** The parameters: is there a leading Context, and the names of the others. *)
Inductive parameters : list ty -> bool -> list nat -> Prop :=
| with_context p ps ns :
    passable ByValue Context p -> Forall2 from_input ps ns ->
    parameters (p :: ps) true ns
| without_context ps ns :
    (forall p, hd_error ps = Some p -> ~ underlies Context p) ->
    Forall2 from_input ps ns ->
    parameters ps false ns.

(** A volatile object of class type cannot be read as a whole. *)
Definition readable (t : ty) : Prop :=
  match t with
  | Ty _ true (SObj n) => is_class w n = false
  | Ty _ true (SPtr _) | Ty _ true (SMem _ _) => True
  | Ty _ true _ => False
  | _ => True
  end.

(** Values of type [T] can be turned into text: by a serializer of T, as C strings,
    or, for pointers, through the object pointed to. *)
Inductive shown : ty -> Prop :=
| shown_own s : to_string w (bare s) = true -> shown (bare s)
| shown_text : shown (ptr (Ty true false (SObj o_char)))
| shown_pointee c v s : readable (Ty c v s) -> shown (bare s) -> shown (ptr (Ty c v s)).

(** What the name of a result type is taken from: T, or U for a T = U cv *. *)
Inductive names_of : ty -> ty -> Prop :=
| names_itself s : (forall u, s <> SPtr u) -> names_of (bare s) (bare s)
| names_pointee c v s : names_of (ptr (Ty c v s)) (bare s).

(** A result of type [R] whose type is called [n]. *)
Inductive result : ty -> nat -> Prop :=
| result_void c v n : type_name w (bare SVoid) = Some n -> result (Ty c v SVoid) n
| result_value R T U n :
    underlies T R -> T <> bare SVoid ->
    (forall u, R = u \/ R = lref u \/ R = rref u -> readable u) ->
    shown T -> names_of T U -> type_name w U = Some n -> result R n.

(** Functions as they can be written: parameters are not qualified themselves, and
    neither is a static call operator. *)
Definition plain_param (p : ty) : Prop :=
  wf p /\ exists s, p = bare s /\ forall n e, s <> SArr e n.
Definition wf_op (o : callop) : Prop :=
  Forall plain_param (o_params o) /\ wf (o_result o) /\
  (o_static o = true -> exists ne, o_quals o = FQ false false RefNone ne).
Definition wf_functor (F : ty) : Prop :=
  match F with
  | Ty false false (SPtr (Ty false false (SFun R ps _ q))) =>
      Forall plain_param ps /\ wf R /\ exists ne, q = FQ false false RefNone ne
  | Ty false false (SMem _ (Ty false false (SFun R ps _ _))) => Forall plain_param ps /\ wf R
  | Ty false false (SObj n) => Forall wf_op (callops w n)
  | Ty false false _ => True
  | _ => False
  end.

(** The functor that takes [ps] and returns [R] is described by [m]. *)
Definition described (ps : list ty) (R : ty) (m : metadata) : Prop :=
  parameters ps (m_context m) (m_params m) /\ result R (m_return m).

(** [F] has the form of a function: a pointer to one, to a member function, or an
    object with one call operator. *)
Inductive function_like : ty -> Prop :=
| fl_free R ps q : function_like (ptr (bare (SFun R ps false q)))
| fl_member m R ps q : function_like (bare (SMem m (bare (SFun R ps false q))))
| fl_object n o : callops w n = [o] -> o_template o = false -> o_dots o = false ->
    function_like (bare (SObj n)).

(** Is the function that [F] stands for declared const? *)
Inductive const_function : ty -> Prop :=
| cf_member m R ps d q : q_const q = true -> const_function (bare (SMem m (bare (SFun R ps d q))))
| cf_object n o : callops w n = [o] -> o_static o = false -> q_const (o_quals o) = true ->
    const_function (bare (SObj n)).

(** [F] can be called through a constant object: what a captured getter needs. *)
Inductive const_callable : ty -> list ty -> ty -> Prop :=
| cc_function R ps d q : const_callable (ptr (bare (SFun R ps d q))) ps R
| cc_object n o : callops w n = [o] -> o_template o = false ->
    o_static o = true \/ (q_const (o_quals o) = true /\ q_ref (o_quals o) <> RefR) ->
    const_callable (bare (SObj n)) (o_params o) (o_result o).

(** [F] can be applied to a pointer to an object of type [C] and further arguments. *)
Inductive invocable : ty -> ty -> list ty -> ty -> Prop :=
| inv_member m n c v R ps d q :
    is_class w n = true -> derives w n m = true ->
    (c = true -> q_const q = true) -> (v = true -> q_volatile q = true) ->
    q_ref q <> RefR ->
    invocable (bare (SMem m (bare (SFun R ps d q)))) (Ty c v (SObj n)) ps R
| inv_other F C p ps R :
    const_callable F (p :: ps) R -> converts w p (ptr C) = true -> invocable F C ps R.

(** The two functors of a property with a getter that returns [R] and, for the setter,
    the parameter [p]. *)
Definition property_functors (R p : ty) (getter setter : callop) : Prop :=
  exists s, underlies (bare s) R /\ s <> SVoid /\ converts w p (bare s) = true /\
    getter = lambda [] R /\ setter = lambda [lref (Ty true false s)] R.

End Spec.
