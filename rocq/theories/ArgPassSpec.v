(** What passing the converted arguments to the functor should do, stated without
    the machinery of ArgPass.v. *)
From Coq Require Import Bool PeanoNat Lia List Permutation.
From Verif Require Import Base ArgPass.
Import ListNotations.

Section Spec.
Context {V E S : Type}.

(** The values of the conversions, if all succeeded. *)
Fixpoint all_values (convs : list (@conversion V E)) : option (list V) :=
  match convs with
  | [] => Some []
  | CValue v :: l => match all_values l with Some vs => Some (v :: vs) | None => None end
  | _ :: _ => None
  end.

(** Their errors, from left to right. *)
Fixpoint all_errors (convs : list (@conversion V E)) : list E :=
  match convs with
  | [] => []
  | CError e :: l => e :: all_errors l
  | _ :: l => all_errors l
  end.

(** One of them throws. *)
Definition a_conversion_throws (convs : list (@conversion V E)) : Prop := In CThrows convs.

(** What the functor is to see: the context, if it asks for one, and the values. *)
Definition seen (ctx : option V) (vs : list V) : list V :=
  match ctx with Some c => c :: vs | None => vs end.

(** The answer to a functor that returned in this way, given what it saw and what
    it left in its parameters.  Through a reference to const it can leave nothing. *)
Definition answer_text (show : V -> S) (sig : list ptype) (before after : list V)
           (r : @ending V) : option (option S) :=
  match r with
  | RetVoid => Some None
  | RetValue v => Some (Some (show v))
  | RetRef i =>
      match nth_error sig i, nth_error before i, nth_error after i with
      | Some p, Some b, Some a => Some (Some (show (if p_const p then b else a)))
      | _, _, _ => None
      end
  | FThrows => None
  end.

(** The parameters of the functor: the Context, if it asks for one, and the rest. *)
Definition all_params (ctx : option (ptype * V)) (ps : list ptype) : list ptype :=
  match ctx with Some (p, _) => p :: ps | None => ps end.

(** A functor keeps its number of parameters and returns no reference to a
    parameter it holds by value, which would dangle in any C++ program. *)
Definition sane_functor (func : list V -> list V * @ending V) (sig : list ptype) : Prop :=
  forall vs, List.length vs = List.length sig ->
    List.length (fst (func vs)) = List.length sig /\
    forall i, snd (func vs) = RetRef i ->
      exists p, nth_error sig i = Some p /\ p_ref p <> NoRef.

(** Evaluation and destruction happen once for each argument, in any order. *)
Definition any_order (order : nat -> nat -> list nat) : Prop :=
  forall level n, Permutation (order level n) (seq 0 n).
Definition any_dorder (dorder : nat -> list nat -> list nat) : Prop :=
  forall level os, Permutation (dorder level os) os.

(** T& is the only parameter type a command cannot have. *)
Definition accepted (p : ptype) : Prop := p <> PT LRef false.

Definition by_value (p : ptype) : bool := match p_ref p with NoRef => true | _ => false end.

Fixpoint moves (l : list (event V)) : nat :=
  match l with [] => 0 | EMove :: l => 1 + moves l | _ :: l => moves l end.
Fixpoint copies (l : list (event V)) : nat :=
  match l with [] => 0 | ECopy :: l => 1 + copies l | _ :: l => copies l end.
(** What the functor saw, at each call. *)
Fixpoint calls (l : list (event V)) : list (list V) :=
  match l with [] => [] | ECall vs :: l => vs :: calls l | _ :: l => calls l end.

(** Three moves for an argument taken by value, two for a Context taken by value. *)
Definition expected_moves (ctx : option (ptype * V)) (ps : list ptype) : nat :=
  3 * List.length (filter by_value ps) +
  match ctx with Some (p, _) => if by_value p then 2 else 0 | None => 0 end.

(** Everything made has been destroyed and nothing else has been touched. *)
Definition tidy (before after : list (option V)) : Prop :=
  exists m, after = before ++ repeat None m.
End Spec.
